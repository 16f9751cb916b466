(** Which kinds of node an edge of the expression graph joins. *)
From Coq Require Import String List Bool Arith Lia NArith ZArith Permutation.
From Verif Require Import Model.Base Model.Value Model.Ast Model.Registry Model.AstGraph Spec.AstGraphSpec.
From Verif Require Import Proofs.AstFlatProofs Proofs.AstExpandProofs.
Import ListNotations.
Set Implicit Arguments.

Definition termlike (x : anode) : Prop :=
  match x with NFlag _ | NIdent _ | NNum _ _ | NPound _ _ | NVar _ | NExpr _ => True | _ => False end.
Definition cmdlike (x : anode) : Prop := match x with NIntrinsic _ _ | NDef _ _ => True | _ => False end.
Definition kinds (r : rel) (a b : anode) : Prop :=
  match r, a, b with
  | RNormal, NExpr _, NOp _ => True
  | RNormal, NOp _, x => termlike x
  | RNormal, NDef _ _, NExpr _ => True
  | RKeyed _, NOp _, x => cmdlike x
  | RTerm _, x, y => termlike x /\ cmdlike y
  | _, _, _ => False
  end.
Definition typed_edge (g : graph) (e : edge) : Prop :=
  exists a b, node g (e_src e) = Some a /\ node g (e_dst e) = Some b /\ kinds (e_rel e) a b.
Definition typed (g : graph) : Prop := forall e, In e (g_edges g) -> typed_edge g e.

Definition keeps (g g' : graph) : Prop := forall n x, node g n = Some x -> node g' n = Some x.
Lemma keeps_refl : forall g, keeps g g. Proof. intros g n x. auto. Qed.
Lemma keeps_trans : forall a b c, keeps a b -> keeps b c -> keeps a c. Proof. unfold keeps. auto. Qed.
Lemma typed_edge_keeps : forall g g' e, keeps g g' -> typed_edge g e -> typed_edge g' e.
Proof. intros g g' e K (a & b & A & B & C). exists a, b. auto. Qed.

Lemma add_node_keeps : forall g x, keeps g (snd (add_node g x)).
Proof.
  intros g x n y E. unfold node in *. cbn. rewrite nth_error_app1; auto. apply nth_error_Some. congruence.
Qed.
Lemma add_node_new : forall g x, node (snd (add_node g x)) (fst (add_node g x)) = Some x.
Proof. intros g x. unfold node. cbn. rewrite nth_error_app2, Nat.sub_diag by lia. reflexivity. Qed.
Lemma typed_add_node : forall g x, typed g -> typed (snd (add_node g x)).
Proof. intros g x T e I. eapply typed_edge_keeps; [apply add_node_keeps|]. apply T, I. Qed.
Lemma typed_add_edge : forall g a b r, typed g -> typed_edge g (Edge a b r) -> typed (add_edge g a b r).
Proof. intros g a b r T E e I. cbn in I. apply in_app_or in I. destruct I as [I|[<-|[]]]; [apply T, I|exact E]. Qed.
Lemma add_edge_keeps : forall g a b r, keeps g (add_edge g a b r). Proof. intros g a b r n x. auto. Qed.

Section S.
Variable s : defs.

Lemma term_node_like : forall t nd, term_node t = Ok nd -> termlike nd.
Proof.
  intros t nd E. unfold term_node in E.
  repeat (match type of E with match ?c with _ => _ end = _ => destruct c end; try discriminate; try (injection E as <-; exact I)).
Qed.
Lemma term_node_expr : forall e nd, term_node (TArg (AExpr e)) = Ok nd -> nd = NExpr (ex_tag e).
Proof. intros e nd E. now injection E. Qed.

Definition waiting (g : graph) (q : list qitem) : Prop :=
  forall n bs o, In (n, bs, o) q -> exists t, node g n = Some (NExpr t).
Lemma waiting_keeps : forall g g' q, keeps g g' -> waiting g q -> waiting g' q.
Proof. intros g g' q K W n bs o I. destruct (W _ _ _ I) as (t & E). exists t. auto. Qed.

Lemma add_terms_typed : forall ts g op g' q, add_terms s g op ts = Ok (g', q) -> typed g -> (exists t, node g op = Some (NOp t)) ->
  typed g' /\ keeps g g' /\ waiting g' q.
Proof.
  induction ts as [|t ts IH]; intros g op g' q E T O; cbn [add_terms] in E.
  { injection E as <- <-. split; [auto|]. split; [apply keeps_refl|]. intros ? ? ? []. }
  destruct (term_node t) as [nd| |] eqn:Et; cbn [rbind] in E; try discriminate.
  destruct (add_node g nd) as [n g1] eqn:EN.
  assert (K1 : keeps g g1) by (pose proof (add_node_keeps g nd) as X; rewrite EN in X; exact X).
  assert (N1 : node g1 n = Some nd) by (pose proof (add_node_new g nd) as X; rewrite EN in X; exact X).
  assert (T1 : typed g1) by (pose proof (@typed_add_node g nd T) as X; rewrite EN in X; exact X).
  match type of E with rbind ?h _ = _ => destruct h as [here| |] eqn:Eh; cbn [rbind] in E; try discriminate end.
  match type of E with rbind ?h _ = _ => destruct h as [[g2 q2]| |] eqn:Er; cbn [rbind] in E; try discriminate end.
  cbn [fst snd] in E. injection E as <- <-. destruct O as (ot & O).
  destruct (IH _ _ _ _ Er) as (A & B & C).
  { apply typed_add_edge; auto. exists (NOp ot), nd. cbn [e_src e_dst e_rel]. split; [apply K1, O|]. split; [exact N1|]. cbn [kinds].
    apply term_node_like in Et. destruct nd; auto. }
  { exists ot. apply K1, O. }
  split; [auto|]. split; [eapply keeps_trans; [exact K1|]; eapply keeps_trans; [apply add_edge_keeps|exact B]|].
  intros m bs o I. apply in_app_or in I. destruct I as [I|I]; [|eapply C, I].
  destruct t as [[?|? ?|? ?|?|e]|?]; try (injection Eh as <-; destruct I).
  destruct (map_ty_tag s (ex_out e)); cbn [rbind] in Eh; try discriminate. injection Eh as <-.
  destruct I as [I|[]]. injection I as <- <- <-. exists (ex_tag e). apply B. apply add_edge_keeps.
  apply term_node_expr in Et. now rewrite N1, Et.
Qed.

Lemma add_blocks_typed : forall bs g root g' q cs, add_blocks s g root bs = Ok (g', q, cs) -> typed g -> (exists t, node g root = Some (NExpr t)) ->
  typed g' /\ keeps g g' /\ waiting g' q.
Proof.
  induction bs as [|b bs IH]; intros g root g' q cs E T O; cbn [add_blocks] in E.
  { injection E as <- <- <-. split; [auto|]. split; [apply keeps_refl|]. intros ? ? ? []. }
  destruct (blk_op b) as [t| |]; cbn [rbind] in E; try discriminate.
  destruct (add_node g (NOp t)) as [n g1] eqn:EN.
  assert (K1 : keeps g g1) by (pose proof (add_node_keeps g (NOp t)) as X; rewrite EN in X; exact X).
  assert (N1 : node g1 n = Some (NOp t)) by (pose proof (add_node_new g (NOp t)) as X; rewrite EN in X; exact X).
  assert (T1 : typed g1) by (pose proof (@typed_add_node g (NOp t) T) as X; rewrite EN in X; exact X).
  destruct (map_ty_tag s (blk_in b)); cbn [rbind] in E; try discriminate.
  destruct (map_ty_tag s (blk_out b)); cbn [rbind] in E; try discriminate.
  match type of E with rbind ?h _ = _ => destruct h as [[g2 q2]| |] eqn:E1; cbn [rbind fst snd] in E; try discriminate end.
  match type of E with rbind ?h _ = _ => destruct h as [[[g3 q3] c3]| |] eqn:E2; cbn [rbind fst snd] in E; try discriminate end.
  injection E as <- <- <-. destruct O as (rt & O).
  destruct (@add_terms_typed _ _ _ _ _ E1) as (A & B & C).
  { apply typed_add_edge; auto. exists (NExpr rt), (NOp t). cbn [e_src e_dst e_rel]. split; [apply K1, O|]. split; [exact N1|exact I]. }
  { exists t. apply N1. }
  destruct (IH _ _ _ _ _ E2 A) as (A2 & B2 & C2).
  { exists rt. apply B. apply add_edge_keeps, K1, O. }
  split; [auto|]. split.
  - eapply keeps_trans; [exact K1|]. eapply keeps_trans; [apply add_edge_keeps|]. eapply keeps_trans; eauto.
  - intros m x o I. apply in_app_or in I. destruct I as [I|I]; [|eapply C2, I]. eapply waiting_keeps; eauto.
Qed.

Lemma flat_loop_typed : forall fuel g q cs g' cs', flat_loop s fuel g q cs = Ok (g', cs') -> typed g -> waiting g q ->
  typed g' /\ keeps g g'.
Proof.
  induction fuel as [|fuel IH]; intros g q cs g' cs' E T W; destruct q as [|[[root bs] o] q]; cbn [flat_loop] in E; try discriminate.
  - injection E as <- <-. split; [auto|apply keeps_refl].
  - injection E as <- <-. split; [auto|apply keeps_refl].
  - destruct (add_blocks s g root bs) as [[[g1 q1] c1]| |] eqn:E1; cbn [rbind fst snd] in E; try discriminate.
    destruct (@add_blocks_typed _ _ _ _ _ _ E1 T) as (A & B & C); [eapply W; now left|].
    apply IH in E; auto.
    + destruct E as (E & F). split; [auto|eapply keeps_trans; eauto].
    + intros m x y I. apply in_app_or in I. destruct I as [I|I]; [|eapply C, I].
      destruct (W m x y (or_intror I)) as (t & Et). exists t. auto.
Qed.

Lemma flatten_typed : forall g e cs root g' cs', flatten_expr s g e cs = Ok (root, g', cs') -> typed g ->
  typed g' /\ keeps g g' /\ node g' root = Some (NExpr (ex_tag e)).
Proof.
  intros g e cs root g' cs' E T. unfold flatten_expr in E. destruct (add_node g (NExpr (ex_tag e))) as [n g1] eqn:EN.
  assert (K1 : keeps g g1) by (pose proof (add_node_keeps g (NExpr (ex_tag e))) as X; rewrite EN in X; exact X).
  assert (N1 : node g1 n = Some (NExpr (ex_tag e))) by (pose proof (add_node_new g (NExpr (ex_tag e))) as X; rewrite EN in X; exact X).
  assert (T1 : typed g1) by (pose proof (@typed_add_node g (NExpr (ex_tag e)) T) as X; rewrite EN in X; exact X).
  destruct (map_ty_tag s (ex_out e)); cbn [rbind] in E; try discriminate.
  match type of E with rbind ?h _ = _ => destruct h as [[g2 c2]| |] eqn:E1; cbn [rbind fst snd] in E; try discriminate end.
  injection E as <- <- <-. apply flat_loop_typed in E1; auto.
  - destruct E1 as (A & B). split; [auto|]. split; [eapply keeps_trans; eauto|]. auto.
  - intros m x o [I|[]]. injection I as <- <- <-. eauto.
Qed.

Lemma link_typed : forall l g cmd, typed g -> (exists x, node g cmd = Some x /\ cmdlike x) ->
  (forall i n, In (i, n) l -> exists x, node g n = Some x /\ termlike x) ->
  typed (fold_left (fun g (it : nat * nat) => add_edge g (snd it) cmd (RTerm (N.of_nat (fst it) mod 256))) l g) /\
  g_nodes (fold_left (fun g (it : nat * nat) => add_edge g (snd it) cmd (RTerm (N.of_nat (fst it) mod 256))) l g) = g_nodes g.
Proof.
  induction l as [|[i n] l IH]; intros g cmd T C L; cbn [fold_left]; [auto|].
  destruct (IH (add_edge g n cmd (RTerm (N.of_nat i mod 256))) cmd) as (A & B).
  - apply typed_add_edge; auto. destruct C as (x & C1 & C2), (L i n (or_introl eq_refl)) as (y & Y1 & Y2).
    exists y, x. cbn [e_src e_dst e_rel]. split; [exact Y1|]. split; [exact C1|]. cbn [kinds]. auto.
  - exact C.
  - intros j m I. apply (L j m). now right.
  - split; [exact A|]. exact B.
Qed.
Lemma op_terms_like : forall g op fl n, typed g -> (exists t, node g op = Some (NOp t)) -> In n (op_terms g op fl) -> exists x, node g n = Some x /\ termlike x.
Proof.
  intros g op fl n T (t & O) I. unfold op_terms in I. rewrite <- in_rev in I. apply in_map_iff in I. destruct I as (e & <- & I).
  apply filter_In in I. destruct I as (I & P). apply andb_true_iff in P. destruct P as (P & _). unfold edges in I. apply filter_In in I.
  destruct I as (I & S0). rewrite <- in_rev in I. apply Nat.eqb_eq in S0. destruct (T _ I) as (a & b & A & B & K).
  rewrite S0, O in A. injection A as <-. destruct (e_rel e); try discriminate. cbn in K. exists b. auto.
Qed.
Lemma in_combine_seq : forall A (l : list A) k i n, In (i, n) (combine (seq k (length l)) l) -> In n l.
Proof. intros A l k i n I. now apply in_combine_r in I. Qed.

Lemma link_terms_typed : forall g ts cmd, typed g -> (exists x, node g cmd = Some x /\ cmdlike x) ->
  (forall n, In n ts -> exists x, node g n = Some x /\ termlike x) -> typed (link_terms g ts cmd) /\ g_nodes (link_terms g ts cmd) = g_nodes g.
Proof. intros g ts cmd T C L. apply link_typed; auto. intros i n I. apply L. eapply in_combine_seq, I. Qed.

Lemma expand_entry_typed : forall op t st e b st', expand_entry s op t st e = Ok (b, st') -> typed (x_g st) ->
  (exists t, node (x_g st) op = Some (NOp t)) -> typed (x_g st') /\ keeps (x_g st) (x_g st').
Proof.
  intros op t st [key i] b st' E T O.
  assert (LINK : forall g cmd k, typed g -> keeps (x_g st) g -> (exists x, node g cmd = Some x /\ cmdlike x) ->
    let g1 := add_edge g op cmd (RKeyed k) in let g2 := link_terms g1 (op_terms g1 op true) cmd in
    let g3 := link_terms g2 (op_terms g2 op false) cmd in typed g3 /\ keeps (x_g st) g3).
  { intros g cmd k T0 K0 C g1 g2 g3. destruct O as (ot & O).
    assert (T1 : typed g1) by (apply typed_add_edge; auto; destruct C as (x & C1 & C2); exists (NOp ot), x; cbn [e_src e_dst e_rel]; split; [apply K0, O|]; split; [exact C1|exact C2]).
    assert (O1 : exists t, node g1 op = Some (NOp t)) by (exists ot; apply K0, O).
    destruct (@link_terms_typed g1 (op_terms g1 op true) cmd) as (A & B); auto.
    { intros n I. eapply op_terms_like; eauto. }
    assert (KN : forall n, node g2 n = node g1 n) by (intros n; unfold node; unfold g2; now rewrite B).
    destruct (@link_terms_typed g2 (op_terms g2 op false) cmd) as (A2 & B2); auto.
    { rewrite KN. exact C. }
    { intros n I. eapply op_terms_like; eauto. now rewrite KN. }
    split; [exact A2|]. intros n x N. unfold node. unfold g3. rewrite B2. apply (eq_trans (KN n)). apply K0, N. }
  unfold expand_entry in E. destruct i as [loc f|d].
  - destruct (add_node (x_g st) (NIntrinsic t f)) as [cmd g] eqn:EN. injection E as <- <-. apply LINK.
    + pose proof (@typed_add_node (x_g st) (NIntrinsic t f) T) as X. now rewrite EN in X.
    + pose proof (add_node_keeps (x_g st) (NIntrinsic t f)) as X. now rewrite EN in X.
    + exists (NIntrinsic t f). pose proof (add_node_new (x_g st) (NIntrinsic t f)) as X. rewrite EN in X. split; [exact X|exact I].
  - destruct (match match key with Some _ => _ | None => _ end with Some id => detect _ _ _ _ | None => false end).
    { injection E as <- <-. split; [auto|apply keeps_refl]. }
    destruct (rmapM _ (d_params d)) as [ps| |]; cbn [rbind] in E; try discriminate.
    destruct (add_node (x_g st) (NDef (ex_tag (d_expr d)) ps)) as [cmd g] eqn:EN.
    match type of E with rbind ?h _ = _ => destruct h as [[[root g1] c1]| |] eqn:E1; cbn [rbind fst snd] in E; try discriminate end.
    injection E as <- <-.
    assert (K1 : keeps (x_g st) g) by (pose proof (add_node_keeps (x_g st) (NDef (ex_tag (d_expr d)) ps)) as X; rewrite EN in X; exact X).
    assert (N1 : node g cmd = Some (NDef (ex_tag (d_expr d)) ps)) by (pose proof (add_node_new (x_g st) (NDef (ex_tag (d_expr d)) ps)) as X; rewrite EN in X; exact X).
    apply flatten_typed in E1.
    2: { pose proof (@typed_add_node (x_g st) (NDef (ex_tag (d_expr d)) ps) T) as X. now rewrite EN in X. }
    destruct E1 as (A & B & C). apply LINK.
    + apply typed_add_edge; auto. exists (NDef (ex_tag (d_expr d)) ps), (NExpr (ex_tag (d_expr d))). cbn [e_src e_dst e_rel]. split; [apply B, N1|]. split; [exact C|exact I].
    + eapply keeps_trans; [exact K1|]. eapply keeps_trans; [exact B|apply add_edge_keeps].
    + exists (NDef (ex_tag (d_expr d)) ps). split; [apply B, N1|exact I].
Qed.

Lemma expand_entries_typed : forall es op t st b st', expand_entries s op t st es = Ok (b, st') -> typed (x_g st) ->
  (exists t, node (x_g st) op = Some (NOp t)) -> typed (x_g st') /\ keeps (x_g st) (x_g st').
Proof.
  induction es as [|e es IH]; intros op t st b st' E T O; cbn [expand_entries] in E.
  { injection E as <- <-. split; [auto|apply keeps_refl]. }
  destruct (expand_entry s op t st e) as [[b1 st1]| |] eqn:E1; cbn [rbind fst snd] in E; try discriminate.
  destruct (expand_entries s op t st1 es) as [[b2 st2]| |] eqn:E2; cbn [rbind fst snd] in E; try discriminate. injection E as <- <-.
  destruct (@expand_entry_typed _ _ _ _ _ _ E1 T O) as (A & B). destruct O as (ot & O).
  destruct (IH _ _ _ _ _ E2 A) as (C & D); [exists ot; auto|]. split; [auto|eapply keeps_trans; eauto].
Qed.
Lemma expand_ops_typed : forall ops st b st', expand_ops s ops st = Ok (b, st') -> typed (x_g st) -> typed (x_g st') /\ keeps (x_g st) (x_g st').
Proof.
  induction ops as [|o ops IH]; intros st b st' E T; cbn [expand_ops] in E.
  { injection E as <- <-. split; [auto|apply keeps_refl]. }
  destruct (expand_def s o st) as [[b1 st1]| |] eqn:E1; cbn [rbind fst snd] in E; try discriminate.
  destruct (expand_ops s ops st1) as [[b2 st2]| |] eqn:E2; cbn [rbind fst snd] in E; try discriminate. injection E as <- <-.
  unfold expand_def in E1. destruct (node (x_g st) o) as [[t|? ?|? ?|?|?|? ?|? ?|?|?]|] eqn:N; try discriminate.
  destruct (alookup _ _ _) as [k|]; [|discriminate].
  destruct (@expand_entries_typed _ _ _ _ _ _ E1 T) as (A & B); [eauto|].
  destruct (IH _ _ _ E2 A) as (C & D). split; [auto|eapply keeps_trans; eauto].
Qed.
Lemma expand_loop_typed : forall more st st', expand_loop s more st = Ok st' -> typed (x_g st) -> typed (x_g st') /\ keeps (x_g st) (x_g st').
Proof.
  induction more as [|more IH]; intros st st' E T; cbn [expand_loop] in E;
    (destruct (expand_defs s st) as [[b st1]| |] eqn:E1; cbn [rbind fst snd] in E; try discriminate);
    apply expand_ops_typed in E1; auto; destruct E1 as (A & B); destruct b; try discriminate; try (injection E as <-; auto).
  destruct (IH _ _ E A) as (C & D). split; [auto|eapply keeps_trans; eauto].
Qed.

Lemma init_typed : forall e g cs, init s e = Ok (g, cs) -> typed g /\ node g 0 = Some (NExpr (ex_tag e)).
Proof.
  intros e g cs E. unfold init in E.
  match type of E with rbind ?h _ = _ => destruct h as [[[root g0] c0]| |] eqn:E1; cbn [rbind fst snd] in E; try discriminate end.
  destruct (expand_loop s LOOPLIM _) as [st| |] eqn:EL; cbn [rbind] in E; try discriminate. injection E as <- <-.
  assert (R : root = 0).
  { unfold flatten_expr in E1. cbn [add_node] in E1. destruct (map_ty_tag s (ex_out e)); cbn [rbind] in E1; try discriminate.
    match type of E1 with rbind ?h _ = _ => destruct h; cbn [rbind] in E1; try discriminate end. injection E1 as <- _ _. reflexivity. }
  subst root. apply flatten_typed in E1; [|intros ? []]. destruct E1 as (A & _ & B).
  apply expand_loop_typed in EL; [|exact A]. destruct EL as (C & D). split; [exact C|]. apply D, B.
Qed.
End S.

(** ** The nodes below a node come in the order of their numbers *)
From Coq Require Import Sorting.Sorted.
Definition srt (g : graph) : Prop := forall n, StronglySorted lt (children g n).

Lemma typed_bound : forall g, typed g -> bound g.
Proof.
  intros g T e I. destruct (T _ I) as (a & b & A & B & _). unfold node in *.
  split; apply nth_error_Some; congruence.
Qed.
Lemma children_app : forall g g' ys, g_edges g' = g_edges g ++ ys -> forall n,
  children g' n = children g n ++ map e_dst (filter (fun e => Nat.eqb (e_src e) n && match e_rel e with RNormal => true | _ => false end) ys).
Proof. intros g g' ys E n. unfold children. now rewrite E, filter_app, map_app. Qed.
Lemma children_add_edge : forall g a b r n, children (add_edge g a b r) n = children g n ++ (if Nat.eqb a n && is_normal r then [b] else []).
Proof.
  intros g a b r n. rewrite (children_app g (add_edge g a b r) [Edge a b r]) by reflexivity. f_equal. cbn.
  unfold is_normal. destruct (Nat.eqb a n); cbn; [destruct r; reflexivity|reflexivity].
Qed.
Lemma link_children : forall l g cmd n,
  children (fold_left (fun g (it : nat * nat) => add_edge g (snd it) cmd (RTerm (N.of_nat (fst it) mod 256))) l g) n = children g n.
Proof.
  induction l as [|[i m] l IH]; intros g cmd n; cbn [fold_left fst snd]; [reflexivity|].
  rewrite IH, children_add_edge, andb_false_r, app_nil_r. reflexivity.
Qed.
Lemma sorted_app_lt : forall l1 l2, StronglySorted lt l1 -> StronglySorted lt l2 -> (forall a b, In a l1 -> In b l2 -> a < b) -> StronglySorted lt (l1 ++ l2).
Proof.
  induction l1 as [|a l1 IH]; intros l2 S1 S2 L; cbn; [auto|]. inversion S1; subst. constructor.
  - apply IH; auto. intros x y X Y. apply L; [now right|auto].
  - apply Forall_app. split; [auto|]. apply Forall_forall. intros y Y. apply L; [now left|auto].
Qed.
Lemma sorted_seq : forall n k, StronglySorted lt (seq k n).
Proof. induction n as [|n IH]; intros k; cbn; constructor; [apply IH|]. apply Forall_forall. intros y Y. apply in_seq in Y. lia. Qed.
Lemma sorted_filter_dst : forall (p : edge -> bool) l, StronglySorted lt (map e_dst l) -> StronglySorted lt (map e_dst (filter p l)).
Proof.
  intros p l. induction l as [|e l IH]; intros S; cbn; [constructor|]. inversion S; subst. destruct (p e); [|auto].
  cbn. constructor; [auto|]. rewrite Forall_forall in *. intros y Y. apply H2. apply in_map_iff in Y. destruct Y as (z & <- & Y).
  apply filter_In in Y. apply in_map, Y.
Qed.
Lemma in_children : forall g n b, In b (children g n) <-> In (Edge n b RNormal) (g_edges g).
Proof.
  intros g n b. unfold children. rewrite in_map_iff. split.
  - intros (e & <- & I). apply filter_In in I. destruct I as (I & P). apply andb_true_iff in P. destruct P as (P & Q).
    apply Nat.eqb_eq in P. destruct e as [a c r]; cbn in *. destruct r; try discriminate. now subst.
  - intros I. exists (Edge n b RNormal). split; [reflexivity|]. apply filter_In. split; [exact I|]. cbn. now rewrite Nat.eqb_refl.
Qed.
Lemma children_lt : forall g n b, bound g -> In b (children g n) -> b < sz g.
Proof. intros g n b B I. apply in_children in I. destruct (B _ I) as (_ & X). exact X. Qed.
Lemma srt_grow : forall g g' ys k, bound g -> srt g -> g_edges g' = g_edges g ++ ys -> map e_dst ys = seq k (length ys) -> sz g <= k -> srt g'.
Proof.
  intros g g' ys k B S E D L n. rewrite (children_app _ _ _ E). apply sorted_app_lt.
  - apply S.
  - apply sorted_filter_dst. rewrite D. apply sorted_seq.
  - intros a b X Y. apply children_lt in X; auto. apply in_map_iff in Y. destruct Y as (e & <- & Y). apply filter_In in Y.
    destruct Y as (Y & _). apply (in_map e_dst) in Y. rewrite D in Y. apply in_seq in Y. lia.
Qed.

Section S2.
Variable s : defs.
Lemma flatten_srt : forall g e cs root g' cs', flatten_expr s g e cs = Ok (root, g', cs') -> bound g -> srt g -> srt g'.
Proof.
  intros g e cs root g' cs' E B S. destruct (@flatten_spec s _ _ _ _ _ _ E B) as (_ & _ & _ & _ & (xs & ys & N & EE & D & _) & _).
  assert (length ys = length xs) as LX by (rewrite <- (map_length e_dst ys), D, seq_length; reflexivity).
  eapply srt_grow with (k := 1 + sz g); eauto. now rewrite LX.
Qed.
Lemma link_srt : forall g op cmd k, srt g ->
    let g1 := add_edge g op cmd (RKeyed k) in let g2 := link_terms g1 (op_terms g1 op true) cmd in
    srt (link_terms g2 (op_terms g2 op false) cmd).
Proof.
  intros g op cmd k S g1 g2 n. unfold link_terms at 1. rewrite link_children. unfold g2, link_terms. rewrite link_children.
  unfold g1. rewrite children_add_edge, andb_false_r, app_nil_r. apply S.
Qed.
Lemma expand_entry_srt : forall op t st e b st', expand_entry s op t st e = Ok (b, st') -> bound (x_g st) -> srt (x_g st) -> srt (x_g st').
Proof.
  intros op t st [key i] b st' E B S. unfold expand_entry in E. destruct i as [loc f|d].
  - destruct (add_node (x_g st) (NIntrinsic t f)) as [cmd g] eqn:EN. injection E as <- <-. apply link_srt.
    unfold add_node in EN. injection EN as <- <-. exact S.
  - destruct (match match key with Some _ => _ | None => _ end with Some id => detect _ _ _ _ | None => false end).
    { injection E as <- <-. exact S. }
    destruct (rmapM _ (d_params d)) as [ps| |]; cbn [rbind] in E; try discriminate.
    destruct (add_node (x_g st) (NDef (ex_tag (d_expr d)) ps)) as [cmd g] eqn:EN.
    match type of E with rbind ?h _ = _ => destruct h as [[[root g1] c1]| |] eqn:E1; cbn [rbind fst snd] in E; try discriminate end.
    injection E as <- <-. apply link_srt.
    unfold add_node in EN. injection EN as <- <-.
    assert (B1 : bound (Graph (g_nodes (x_g st) ++ [NDef (ex_tag (d_expr d)) ps]) (g_edges (x_g st)))).
    { intros e I. destruct (B e I) as (X & Y). cbn. rewrite app_length. cbn. lia. }
    pose proof (@flatten_srt _ _ _ _ _ _ E1 B1 S) as S1.
    destruct (@flatten_spec s _ _ _ _ _ _ E1 B1) as (_ & _ & _ & _ & (xs & ys & N & EE & D & F) & _).
    intros n. rewrite children_add_edge. cbn [is_normal]. rewrite andb_true_r.
    destruct (Nat.eqb_spec (length (g_nodes (x_g st))) n) as [<-|NE]; [|rewrite app_nil_r; apply S1].
    rewrite (children_app _ _ _ EE).
    assert (children (Graph (g_nodes (x_g st) ++ [NDef (ex_tag (d_expr d)) ps]) (g_edges (x_g st))) (length (g_nodes (x_g st))) = []) as ->.
    { apply (children_none (x_g st)); [exact B|lia]. }
    rewrite filter_none; [cbn; repeat constructor|]. intros e I. rewrite Forall_forall in F. destruct (F _ I) as (_ & _ & F3).
    cbn in F3. rewrite app_length in F3. cbn in F3. apply andb_false_iff. left. apply Nat.eqb_neq. lia.
Qed.
Lemma expand_entries_srt : forall es op t st b st', expand_entries s op t st es = Ok (b, st') -> typed (x_g st) ->
  (exists t, node (x_g st) op = Some (NOp t)) -> srt (x_g st) -> srt (x_g st').
Proof.
  induction es as [|e es IH]; intros op t st b st' E T O S; cbn [expand_entries] in E.
  { injection E as <- <-. auto. }
  destruct (expand_entry s op t st e) as [[b1 st1]| |] eqn:E1; cbn [rbind fst snd] in E; try discriminate.
  destruct (expand_entries s op t st1 es) as [[b2 st2]| |] eqn:E2; cbn [rbind fst snd] in E; try discriminate. injection E as <- <-.
  destruct (@expand_entry_typed s _ _ _ _ _ _ E1 T O) as (A & B). destruct O as (ot & O).
  eapply IH; eauto. eapply expand_entry_srt; eauto. now apply typed_bound.
Qed.
Lemma expand_ops_srt : forall ops st b st', expand_ops s ops st = Ok (b, st') -> typed (x_g st) -> srt (x_g st) -> srt (x_g st').
Proof.
  induction ops as [|o ops IH]; intros st b st' E T S; cbn [expand_ops] in E.
  { injection E as <- <-. auto. }
  destruct (expand_def s o st) as [[b1 st1]| |] eqn:E1; cbn [rbind fst snd] in E; try discriminate.
  destruct (expand_ops s ops st1) as [[b2 st2]| |] eqn:E2; cbn [rbind fst snd] in E; try discriminate. injection E as <- <-.
  unfold expand_def in E1. destruct (node (x_g st) o) as [[t|? ?|? ?|?|?|? ?|? ?|?|?]|] eqn:N; try discriminate.
  destruct (alookup _ _ _) as [k|]; [|discriminate].
  destruct (@expand_entries_typed s _ _ _ _ _ _ E1 T) as (A & B); [eauto|].
  eapply IH; eauto. eapply expand_entries_srt; eauto.
Qed.
Lemma expand_loop_srt : forall more st st', expand_loop s more st = Ok st' -> typed (x_g st) -> srt (x_g st) -> srt (x_g st').
Proof.
  induction more as [|more IH]; intros st st' E T S; cbn [expand_loop] in E;
    (destruct (expand_defs s st) as [[b st1]| |] eqn:E1; cbn [rbind fst snd] in E; try discriminate);
    pose proof (@expand_ops_srt _ _ _ _ E1 T S); apply expand_ops_typed in E1; auto; destruct E1 as (A & B);
    destruct b; try discriminate; try (injection E as <-; auto).
  eapply IH; eauto.
Qed.
Lemma init_srt : forall e g cs, init s e = Ok (g, cs) -> srt g.
Proof.
  intros e g cs E. unfold init in E.
  match type of E with rbind ?h _ = _ => destruct h as [[[root g0] c0]| |] eqn:E1; cbn [rbind fst snd] in E; try discriminate end.
  destruct (expand_loop s LOOPLIM _) as [st| |] eqn:EL; cbn [rbind] in E; try discriminate. injection E as <- <-.
  assert (B : bound (Graph [] [])) by (intros ? []).
  assert (S : srt (Graph [] [])) by (intros n; constructor).
  pose proof (@flatten_srt _ _ _ _ _ _ E1 B S) as S1. apply flatten_typed in E1; [|intros ? []]. destruct E1 as (A & _ & _).
  eapply expand_loop_srt; eauto.
Qed.
End S2.
