(** Flattening an expression into the graph. *)
From Coq Require Import String List ZArith NArith Bool Arith Lia.
From Verif Require Import Model.Base Model.Value Model.Ast Model.Registry Model.AstGraph Spec.AstGraphSpec.
Import ListNotations.

(** ** Sizes *)
Definition size_terms (l : list term) : nat := fold_right (fun x n => size_term x + n) 0 l.
Definition size_blocks (l : list block) : nat := fold_right (fun x n => size_block x + n) 0 l.
Lemma size_expr_eq : forall e, size_expr e = S (size_blocks (ex_blocks e)).
Proof. intros [t bs o]. reflexivity. Qed.
Lemma size_block_terms : forall b, size_terms (blk_terms b) < size_block b.
Proof.
  intros [op ts i o|op a r o]; cbn [blk_terms size_block].
  - change (size_terms ts < S (size_terms ts)). lia.
  - unfold size_terms, fold_right. cbn [size_term size_arg]. lia.
Qed.
Lemma in_terms_size : forall e' ts, In (TArg (AExpr e')) ts -> size_expr e' < size_terms ts.
Proof.
  induction ts as [|t ts IH]; intros H; [destruct H|]. destruct H as [->|H]; cbn [size_terms fold_right].
  - cbn [size_term size_arg]. lia.
  - specialize (IH H). unfold size_terms in IH. lia.
Qed.
Lemma in_blocks_size : forall b bs, In b bs -> size_block b <= size_blocks bs.
Proof.
  induction bs as [|x bs IH]; intros H; [destruct H|]. cbn [size_blocks fold_right]. destruct H as [->|H]; [lia|].
  specialize (IH H). unfold size_blocks in IH. lia.
Qed.
Lemma sub_size : forall e b e', In b (ex_blocks e) -> In (TArg (AExpr e')) (blk_terms b) -> size_expr e' < size_expr e.
Proof.
  intros e b e' H1 H2. apply in_terms_size in H2. apply in_blocks_size in H1. assert (X := size_block_terms b).
  rewrite (size_expr_eq e). lia.
Qed.

(** ** Graph extension *)
Definition ext (g g' : graph) : Prop :=
  exists xs ys, g_nodes g' = g_nodes g ++ xs /\ g_edges g' = g_edges g ++ ys /\
    forall e, In e ys -> length (g_nodes g) <= e_dst e /\ (e_rel e = RNormal -> length (g_nodes g) <= e_src e).

Notation sz g := (length (g_nodes g)).

Lemma ext_refl : forall g, ext g g.
Proof. intros g. exists [], []. rewrite !app_nil_r. cbn. tauto. Qed.
Lemma ext_trans : forall a b c, ext a b -> ext b c -> ext a c.
Proof.
  intros a b c (x1 & y1 & N1 & E1 & P1) (x2 & y2 & N2 & E2 & P2). exists (x1 ++ x2), (y1 ++ y2).
  rewrite N2, N1, E2, E1, !app_assoc. repeat split; auto.
  - apply in_app_or in H. destruct H as [H|H]; [apply P1; auto|]. specialize (P2 _ H). rewrite N1, app_length in P2. lia.
  - intros R. apply in_app_or in H. destruct H as [H|H]; [apply P1; auto|]. specialize (P2 _ H). rewrite N1, app_length in P2.
    destruct P2 as [_ P2]. specialize (P2 R). lia.
Qed.
Lemma ext_size : forall g g', ext g g' -> sz g <= sz g'.
Proof. intros g g' (xs & ys & N & _). rewrite N, app_length. lia. Qed.
Lemma ext_node : forall g g' n, ext g g' -> n < sz g -> node g' n = node g n.
Proof. intros g g' n (xs & ys & N & _) H. unfold node. rewrite N. now apply nth_error_app1. Qed.
Lemma ext_node_some : forall g g' n x, ext g g' -> node g n = Some x -> node g' n = Some x.
Proof. intros g g' n x E H. rewrite (ext_node g g'); auto. apply nth_error_Some. unfold node in H. congruence. Qed.
Lemma filter_none : forall A (p : A -> bool) l, (forall x, In x l -> p x = false) -> filter p l = [].
Proof. induction l as [|x l IH]; intros H; [reflexivity|]. cbn. rewrite (H x) by now left. apply IH. intros; apply H; now right. Qed.
Lemma ext_children : forall g g' n, ext g g' -> n < sz g -> children g' n = children g n.
Proof.
  intros g g' n (xs & ys & N & E & P) H. unfold children. rewrite E, filter_app, (filter_none _ _ ys), app_nil_r; [reflexivity|].
  intros e I. destruct (P _ I) as [_ Q]. destruct (e_rel e); rewrite ?andb_false_r; try reflexivity. rewrite andb_true_r.
  apply Nat.eqb_neq. specialize (Q eq_refl). lia.
Qed.
Lemma ext_in_filter : forall g g' n (p : edge -> bool), ext g g' -> n < sz g ->
  filter (fun e => Nat.eqb (e_dst e) n && p e) (g_edges g') = filter (fun e => Nat.eqb (e_dst e) n && p e) (g_edges g).
Proof.
  intros g g' n p (xs & ys & N & E & P) H. rewrite E, filter_app, (filter_none _ _ ys), app_nil_r; [reflexivity|].
  intros e I. destruct (P _ I) as [Q _]. assert (Nat.eqb (e_dst e) n = false) as -> by (apply Nat.eqb_neq; lia). reflexivity.
Qed.
Lemma ext_parents : forall g g' n, ext g g' -> n < sz g -> parents g' n = parents g n.
Proof. intros g g' n E H. unfold parents. f_equal. now apply (ext_in_filter g g' n _ E H). Qed.
Lemma filter_rev : forall A (p : A -> bool) l, filter p (rev l) = rev (filter p l).
Proof. intros A p. induction l as [|x l IH]; [reflexivity|]. cbn. rewrite filter_app, IH. cbn. destruct (p x); [reflexivity|]. now rewrite app_nil_r. Qed.
Lemma edges_in_eq : forall g n, edges_in g n = rev (filter (fun e => Nat.eqb (e_dst e) n && true) (g_edges g)).
Proof. intros. unfold edges_in. rewrite filter_rev. f_equal. apply filter_ext. intros. now rewrite andb_true_r. Qed.
Lemma ext_edges_in : forall g g' n, ext g g' -> n < sz g -> edges_in g' n = edges_in g n.
Proof. intros. rewrite !edges_in_eq. f_equal. now apply (ext_in_filter g g' n (fun _ => true)). Qed.
Lemma ext_is_flag : forall g g' n, ext g g' -> n < sz g -> is_flag g' n = is_flag g n.
Proof. intros. unfold is_flag. now rewrite (ext_node g g'). Qed.

Lemma Forall2_impl_in : forall A B (P Q : A -> B -> Prop) l m, Forall2 P l m -> (forall a b, In a l -> In b m -> P a b -> Q a b) -> Forall2 Q l m.
Proof. induction 1; intros H1; constructor; [apply H1; cbn; auto|apply IHForall2; intros; apply H1; cbn; auto]. Qed.

Lemma Forall2_nth : forall A B (P : A -> B -> Prop) l m, Forall2 P l m -> forall j x, nth_error l j = Some x ->
  exists y, nth_error m j = Some y /\ P x y.
Proof.
  induction 1 as [|x0 y0 l m H F IH]; intros j x J; [destruct j; discriminate|].
  destruct j; cbn in *; [injection J as <-; exists y0; auto|]. apply IH. exact J.
Qed.

Lemma shows_ext : forall g g', ext g g' -> forall k e n, size_expr e <= k -> shows g n e -> shows g' n e.
Proof.
  intros g g' E. induction k as [|k IH]; intros e n L H; [destruct e; cbn in L; lia|].
  inversion H as [n0 e0 Hn Hc]; subst.
  assert (n < sz g) by (apply nth_error_Some; unfold node in Hn; congruence).
  constructor; [eapply ext_node_some; eauto|]. rewrite (ext_children g g') by auto.
  apply (Forall2_impl_in _ _ _ _ _ _ Hc). intros o b Io Ib Hb. inversion Hb as [n1 b1 t Ht Hop Hts]; subst.
  assert (o < sz g) by (apply nth_error_Some; unfold node in Ht; congruence).
  apply shows_block_intro with t; [eapply ext_node_some; eauto|auto|]. rewrite (ext_children g g') by auto.
  apply (Forall2_impl_in _ _ _ _ _ _ Hts). intros a t' Ia It Ht'.
  inversion Ht'; subst; try (constructor; eapply ext_node_some; eauto; fail).
  - apply shows_pound with p; auto. eapply ext_node_some; eauto.
  - constructor. apply IH; [|auto]. assert (X := sub_size e b e0 Ib It). lia.
Qed.
Lemma shows_ext' : forall g g' e n, ext g g' -> shows g n e -> shows g' n e.
Proof. intros. eapply shows_ext; eauto. Qed.

(** ** Terms *)
Section S.
Variable s : defs.

(** Edges added by flattening: one to each new node, in order. *)
Definition grows (g g' : graph) (from : nat -> Prop) (ys : list edge) : Prop :=
  (exists xs, g_nodes g' = g_nodes g ++ xs) /\ g_edges g' = g_edges g ++ ys /\
  map e_dst ys = seq (sz g) (sz g' - sz g) /\
  Forall (fun e => e_rel e = RNormal /\ e_src e < e_dst e /\ (from (e_src e) \/ sz g <= e_src e)) ys.

Lemma grows_node : forall g g' f ys n x, grows g g' f ys -> node g n = Some x -> node g' n = Some x.
Proof.
  intros g g' f ys n x ((xs & N) & _) H. unfold node in *. rewrite N, nth_error_app1; auto. apply nth_error_Some. congruence.
Qed.
Lemma grows_size : forall g g' f ys, grows g g' f ys -> sz g <= sz g'.
Proof. intros g g' f ys ((xs & N) & _). rewrite N, app_length. lia. Qed.
Lemma grows_nil : forall g f, grows g g f [].
Proof. intros g f. split; [exists []; now rewrite app_nil_r|]. rewrite app_nil_r, Nat.sub_diag. cbn. auto. Qed.
Lemma grows_app : forall a b c f1 f2 f y1 y2, grows a b f1 y1 -> grows b c f2 y2 ->
  (forall n, f1 n -> f n \/ sz a <= n) -> (forall n, f2 n -> f n \/ sz a <= n) -> grows a c f (y1 ++ y2).
Proof.
  intros a b c f1 f2 f y1 y2 G1 G2 F1 F2. assert (S1 := grows_size _ _ _ _ G1). assert (S2 := grows_size _ _ _ _ G2).
  destruct G1 as ((x1 & N1) & E1 & D1 & P1), G2 as ((x2 & N2) & E2 & D2 & P2).
  split; [exists (x1 ++ x2); now rewrite N2, N1, app_assoc|].
  split; [now rewrite E2, E1, app_assoc|]. split.
  - rewrite map_app, D1, D2. replace (sz b) with (sz a + (sz b - sz a)) at 2 by lia. rewrite <- seq_app. f_equal. lia.
  - apply Forall_app. split; (eapply Forall_impl; [|eassumption]); cbn; intros e (A & B & C); (split; [auto|]); (split; [auto|]).
    + destruct C as [C|C]; auto.
    + destruct C as [C|C]; auto. right. lia.
Qed.

(** A term node whose expression, if it is one, still waits in [q]. *)
Definition pre_term (g : graph) (q : list qitem) (n : nat) (t : term) : Prop :=
  match t with
  | TArg (AExpr e) => node g n = Some (NExpr (ex_tag e)) /\ exists o, map_ty_tag s (ex_out e) = Ok o /\ In (n, ex_blocks e, o) q
  | t => (exists nd, term_node t = Ok nd /\ node g n = Some nd) /\ ~ In n (map (fun i => fst (fst i)) q)
  end.
Fixpoint qsize (q : list qitem) : nat := match q with [] => 0 | i :: q => S (size_blocks (snd (fst i))) + qsize q end.
Lemma qsize_app : forall a b, qsize (a ++ b) = qsize a + qsize b.
Proof. induction a as [|i a IH]; intros b; cbn [qsize app]; [reflexivity|]. rewrite IH. lia. Qed.
Lemma size_terms_cons : forall t ts, size_terms (t :: ts) = size_term t + size_terms ts.
Proof. reflexivity. Qed.
Lemma size_blocks_cons : forall t ts, size_blocks (t :: ts) = size_block t + size_blocks ts.
Proof. reflexivity. Qed.
Definition qroots (q : list qitem) : list nat := map (fun i => fst (fst i)) q.

Lemma add_terms_spec : forall ts g op g' q, add_terms s g op ts = Ok (g', q) -> op < sz g ->
  sz g' = sz g + length ts /\
  grows g g' (fun n => n = op) (map (fun n => Edge op n RNormal) (seq (sz g) (length ts))) /\
  Forall2 (pre_term g' q) (seq (sz g) (length ts)) ts /\
  NoDup (qroots q) /\ (forall n, In n (qroots q) -> sz g <= n < sz g') /\
  (forall n bs o, In (n, bs, o) q -> exists e, In (TArg (AExpr e)) ts /\ bs = ex_blocks e) /\
  qsize q <= size_terms ts.
Proof.
  induction ts as [|t ts IH]; intros g op g' q H Hop; cbn [add_terms] in H.
  - injection H as <- <-. cbn [length seq map]. split; [lia|]. split; [apply grows_nil|]. split; [constructor|].
    split; [constructor|]. split; [intros n []|]. split; [intros n bs o []|]. cbn; lia.
  - destruct (term_node t) as [nd| |] eqn:Et; cbn [rbind] in H; try discriminate.
    cbn [add_node] in H.
    set (g1 := add_edge (Graph (g_nodes g ++ [nd]) (g_edges g)) op (sz g) RNormal) in *.
    match type of H with rbind ?h _ = _ => destruct h as [here| |] eqn:Eh; cbn [rbind] in H; try discriminate end.
    destruct (add_terms s g1 op ts) as [[g2 q2]| |] eqn:E2; cbn [rbind fst snd] in H; try discriminate.
    injection H as <- <-.
    assert (S1 : sz g1 = S (sz g)) by (cbn; rewrite app_length; cbn; lia).
    destruct (IH _ _ _ _ E2 ltac:(lia)) as (A1 & A2 & A3 & A4 & A5 & A6 & A7).
    assert (G1 : grows g g1 (fun n => n = op) [Edge op (sz g) RNormal]).
    { split; [exists [nd]; reflexivity|]. split; [reflexivity|]. split.
      - rewrite S1. replace (S (sz g) - sz g) with 1 by lia. reflexivity.
      - constructor; [|constructor]. cbn. auto. }
    assert (Hhere : forall n bs o, In (n, bs, o) here -> n = sz g /\ exists e, t = TArg (AExpr e) /\ bs = ex_blocks e /\ map_ty_tag s (ex_out e) = Ok o).
    { intros n bs o I. destruct t as [[x|z x|c x|x|e]|x]; try (injection Eh as <-; destruct I).
      destruct (map_ty_tag s (ex_out e)) as [o'| |] eqn:Eo; cbn in Eh; try discriminate. injection Eh as <-.
      destruct I as [I|[]]. injection I as <- <- <-. split; [auto|]. exists e. auto. }
    assert (Hroots : forall n, In n (qroots here) -> n = sz g).
    { intros n I. apply in_map_iff in I. destruct I as ([[n' bs] o] & <- & I). apply Hhere in I. cbn. tauto. }
    split; [cbn [length]; lia|]. split; [|split; [|split; [|split; [|split]]]].
    + cbn [length seq map]. rewrite <- S1. change (Edge op (sz g) RNormal :: ?l) with ([Edge op (sz g) RNormal] ++ l).
      eapply grows_app; eauto; cbn; auto.
    + cbn [length seq]. rewrite S1 in A3. constructor.
      * assert (N : node g2 (sz g) = Some nd).
        { eapply grows_node; [exact A2|]. unfold node, g1. cbn. rewrite nth_error_app2, Nat.sub_diag by lia. reflexivity. }
        assert (NQ : ~ In (sz g) (map (fun i : qitem => fst (fst i)) q2)).
        { intros I. apply A5 in I. lia. }
        unfold pre_term. destruct t as [[x|z x|c x|x|e]|x]; try (injection Eh as <-; cbn [app]; split; [eexists; split; [exact Et|exact N]|exact NQ]; fail).
        split; [cbn in Et; congruence|]. destruct (map_ty_tag s (ex_out e)) as [o'| |]; cbn in Eh; try discriminate.
        injection Eh as <-. exists o'. split; [reflexivity|]. now left.
      * apply (Forall2_impl_in _ _ _ _ _ _ A3). intros n t' In_ It P. apply in_seq in In_. unfold pre_term in *.
        assert (X : forall P : Prop, (P /\ ~ In n (map (fun i : qitem => fst (fst i)) q2)) -> P /\ ~ In n (map (fun i : qitem => fst (fst i)) (here ++ q2))).
        { intros P0 [X Y]. split; [auto|]. rewrite map_app. intros I. apply in_app_or in I. destruct I as [I|I]; [|tauto].
          apply Hroots in I. lia. }
        destruct t' as [[x|z x|c x|x|e]|x]; auto.
        destruct P as (P1 & o & P2 & P3). split; [auto|]. exists o. split; [auto|]. apply in_or_app. now right.
    + unfold qroots. rewrite map_app. destruct t as [[x|z x|c x|x|e]|x]; try (injection Eh as <-; exact A4).
      destruct (map_ty_tag s (ex_out e)) as [o'| |]; cbn in Eh; try discriminate. injection Eh as <-. cbn. constructor; [|exact A4].
      intros I. apply A5 in I. lia.
    + intros n I. unfold qroots in I. rewrite map_app in I. apply in_app_or in I. destruct I as [I|I].
      * apply Hroots in I. lia.
      * apply A5 in I. lia.
    + intros n bs o I. apply in_app_or in I. destruct I as [I|I].
      * destruct (Hhere _ _ _ I) as (_ & e & -> & -> & _). exists e. split; [now left|auto].
      * destruct (A6 _ _ _ I) as (e & I1 & I2). exists e. split; [now right|auto].
    + rewrite qsize_app, size_terms_cons.
      destruct t as [[x|z x|c x|x|e]|x]; try (injection Eh as <-; cbn [qsize]; lia).
      destruct (map_ty_tag s (ex_out e)) as [o'| |]; cbn in Eh; try discriminate. injection Eh as <-.
      cbn [qsize fst snd]. cbn [size_term size_arg]. rewrite size_expr_eq. lia.
Qed.

(** ** Blocks *)
Lemma grows_children_new : forall g g' f ys n, grows g g' f ys ->
  children g' n = children g n ++ map e_dst (filter (fun e => Nat.eqb (e_src e) n) ys).
Proof.
  intros g g' f ys n (_ & E & _ & F). unfold children. rewrite E, filter_app, map_app. do 2 f_equal.
  apply filter_ext_in. intros e I. rewrite Forall_forall in F. destruct (F _ I) as (R & _). rewrite R. apply andb_true_r.
Qed.
Lemma filter_src_all : forall op l, filter (fun e => Nat.eqb (e_src e) op) (map (fun n => Edge op n RNormal) l) = map (fun n => Edge op n RNormal) l.
Proof. induction l as [|x l IH]; [reflexivity|]. cbn. now rewrite Nat.eqb_refl, IH. Qed.

(** A block written in the graph except for the expressions that still wait. *)
Definition pre_block (g : graph) (q : list qitem) (o : nat) (b : block) : Prop :=
  exists t, blk_op b = Ok t /\ node g o = Some (NOp t) /\ ~ In o (qroots q) /\ Forall2 (pre_term g q) (children g o) (blk_terms b).

Definition bound (g : graph) : Prop := forall e, In e (g_edges g) -> e_src e < sz g /\ e_dst e < sz g.
Lemma grows_bound : forall g g' f ys, bound g -> grows g g' f ys -> bound g'.
Proof.
  intros g g' f ys B G e I. assert (S := grows_size _ _ _ _ G). destruct G as (_ & E & D & F). rewrite E in I. apply in_app_or in I.
  destruct I as [I|I]; [specialize (B _ I); lia|]. rewrite Forall_forall in F. destruct (F _ I) as (_ & L & _).
  assert (X : In (e_dst e) (map e_dst ys)) by (now apply in_map). rewrite D in X. apply in_seq in X. lia.
Qed.
Lemma children_none : forall g n, bound g -> sz g <= n -> children g n = [].
Proof.
  intros g n B H. unfold children. rewrite filter_none; [reflexivity|]. intros e I. specialize (B _ I).
  assert (Nat.eqb (e_src e) n = false) as -> by (apply Nat.eqb_neq; lia). reflexivity.
Qed.

Lemma pre_term_mono : forall g g' q q' n t, (forall m x, node g m = Some x -> node g' m = Some x) ->
  (forall i, In i q -> In i q') -> (forall m, In m (qroots q') -> In m (qroots q) \/ sz g <= m) -> n < sz g ->
  pre_term g q n t -> pre_term g' q' n t.
Proof.
  intros g g' q q' n t HN HQ HR L P. unfold pre_term in *.
  assert (X : forall P : Prop, (P /\ ~ In n (map (fun i : qitem => fst (fst i)) q)) -> P /\ ~ In n (map (fun i : qitem => fst (fst i)) q')).
  { intros P0 [A B]. split; [auto|]. intros I. apply HR in I. destruct I; [tauto|lia]. }
  destruct t as [[x|z x|c x|x|e]|x];
    try (destruct P as [(nd & P1 & P2) P3]; apply X; split; [exists nd; split; [auto|now apply HN]|auto]; fail).
  destruct P as (P1 & o & P2 & P3). split; [now apply HN|]. eauto.
Qed.

Lemma add_blocks_spec : forall bs g root g' q cs, add_blocks s g root bs = Ok (g', q, cs) -> root < sz g -> bound g ->
  exists ys os, grows g g' (fun n => n = root) ys /\
  children g' root = children g root ++ os /\
  Forall2 (pre_block g' q) os bs /\ (forall o, In o os -> sz g <= o) /\
  NoDup (qroots q) /\ (forall n, In n (qroots q) -> sz g <= n < sz g' /\ forall e, In e ys -> e_src e <> n) /\
  (forall n bs' o, In (n, bs', o) q -> exists b e, In b bs /\ In (TArg (AExpr e)) (blk_terms b) /\ bs' = ex_blocks e) /\
  (forall n t, sz g <= n -> node g' n = Some (NOp t) -> exists b, In b bs /\ blk_op b = Ok t) /\
  qsize q <= size_blocks bs.
Proof.
  induction bs as [|b bs IH]; intros g root g' q cs H Hr B; cbn [add_blocks] in H.
  - injection H as <- <- <-. exists [], []. split; [apply grows_nil|]. rewrite app_nil_r. split; [auto|]. split; [constructor|].
    split; [intros o []|]. split; [constructor|]. split; [intros n []|]. split; [intros n b o []|]. split; [|cbn; lia].
    intros n t L N. apply nth_error_None in L. unfold node in N. congruence.
  - destruct (blk_op b) as [t| |] eqn:Eop; cbn [rbind] in H; try discriminate.
    cbn [add_node] in H.
    set (g1 := add_edge (Graph (g_nodes g ++ [NOp t]) (g_edges g)) root (sz g) RNormal) in *.
    destruct (map_ty_tag s (blk_in b)) as [i1| |]; cbn [rbind] in H; try discriminate.
    destruct (map_ty_tag s (blk_out b)) as [o1| |]; cbn [rbind] in H; try discriminate.
    destruct (add_terms s g1 (sz g) (blk_terms b)) as [[g2 q2]| |] eqn:E2; cbn [rbind fst snd] in H; try discriminate.
    destruct (add_blocks s g2 root bs) as [[[g3 q3] c3]| |] eqn:E3; cbn [rbind fst snd] in H; try discriminate.
    injection H as <- <- <-.
    assert (S1 : sz g1 = S (sz g)) by (cbn; rewrite app_length; cbn; lia).
    destruct (add_terms_spec _ _ _ _ _ E2 ltac:(lia)) as (A1 & A2 & A3 & A4 & A5 & A6 & A7).
    assert (G1 : grows g g1 (fun n => n = root) [Edge root (sz g) RNormal]).
    { split; [exists [NOp t]; reflexivity|]. split; [reflexivity|]. split.
      - rewrite S1. replace (S (sz g) - sz g) with 1 by lia. reflexivity.
      - constructor; [|constructor]. cbn. auto. }
    assert (B1 := grows_bound _ _ _ _ B G1). assert (B2 := grows_bound _ _ _ _ B1 A2).
    destruct (IH _ _ _ _ _ E3 ltac:(lia) B2) as (ys & os & C1 & C2 & C3 & C4 & C5 & C6 & C7 & C9 & C8).
    set (tys := map (fun n => Edge (sz g) n RNormal) (seq (sz g1) (length (blk_terms b)))) in *.
    assert (G2 : grows g g2 (fun n => n = root) ([Edge root (sz g) RNormal] ++ tys)).
    { apply (grows_app g g1 g2 (fun n => n = root) (fun n => n = sz g)); auto. intros n ->. right. lia. }
    assert (NG : forall m x, node g2 m = Some x -> node g3 m = Some x) by (intros; eapply grows_node; eauto).
    assert (SZ3 := grows_size _ _ _ _ C1).
    exists (([Edge root (sz g) RNormal] ++ tys) ++ ys), (sz g :: os).
    split; [|split; [|split; [|split; [|split; [|split; [|split; [|split]]]]]]].
    + eapply grows_app; eauto; cbn; auto.
    + rewrite C2, (grows_children_new g g2 _ _ root G2). rewrite <- app_assoc. f_equal. cbn [app filter e_src]. rewrite Nat.eqb_refl.
      cbn [map e_dst app]. f_equal. rewrite filter_none; [reflexivity|]. intros e I. unfold tys in I. apply in_map_iff in I.
      destruct I as (n & <- & I). cbn. apply Nat.eqb_neq. lia.
    + constructor.
      * exists t. split; [auto|]. split; [|split].
        -- apply NG. eapply grows_node; [exact A2|]. unfold node, g1. cbn. rewrite nth_error_app2, Nat.sub_diag by lia. reflexivity.
        -- unfold qroots. rewrite map_app. intros I. apply in_app_or in I. destruct I as [I|I]; [apply A5 in I; lia|].
           apply C6 in I. destruct I as [I _]. lia.
        -- rewrite (grows_children_new g2 g3 _ _ (sz g) C1), (grows_children_new g1 g2 _ _ (sz g) A2).
           rewrite (grows_children_new g g1 _ _ (sz g) G1), (children_none g (sz g) B) by lia.
           cbn [app filter e_src map]. assert (X : Nat.eqb root (sz g) = false) by (apply Nat.eqb_neq; lia). rewrite X. cbn [map app].
           unfold tys. rewrite filter_src_all, map_map. cbn [e_dst]. rewrite map_id.
           rewrite (filter_none _ _ ys), app_nil_r.
           2: { intros e I. destruct C1 as (_ & _ & _ & F). rewrite Forall_forall in F. destruct (F _ I) as (_ & _ & [-> | L]); [exact X|].
                apply Nat.eqb_neq. lia. }
           apply (Forall2_impl_in _ _ _ _ _ _ A3). intros n t' In_ It P. apply in_seq in In_.
           apply (pre_term_mono g2 g3 q2 (q2 ++ q3)); auto.
           ++ intros i I. apply in_or_app. now left.
           ++ intros m I. unfold qroots in I. rewrite map_app in I. apply in_app_or in I. destruct I as [I|I]; [now left|].
              right. apply C6 in I. lia.
           ++ lia.
      * apply (Forall2_impl_in _ _ _ _ _ _ C3). intros o b' Io Ib (t' & P1 & P2 & P3 & P4).
        assert (L : sz g2 <= o) by auto. exists t'. split; [auto|]. split; [auto|].
        assert (NR : forall m, sz g2 <= m -> ~ In m (qroots q3) -> ~ In m (qroots (q2 ++ q3))).
        { intros m Lm N I. unfold qroots in I. rewrite map_app in I. apply in_app_or in I. destruct I as [I|I]; [|auto].
          apply A5 in I. lia. }
        split; [auto|].
        apply (Forall2_impl_in _ _ _ _ _ _ P4). intros n t1 In_ It P. unfold pre_term in *.
        assert (Ln : sz g2 <= n).
        { rewrite (grows_children_new g2 g3 _ _ o C1), (children_none g2 o B2 L) in In_. cbn [app] in In_.
          apply in_map_iff in In_. destruct In_ as (e & <- & I). apply filter_In in I. destruct I as [I _].
          destruct C1 as (_ & _ & D & _). assert (X : In (e_dst e) (map e_dst ys)) by (now apply in_map). rewrite D in X.
          apply in_seq in X. lia. }
        destruct t1 as [[x|z x|c x|x|e]|x]; try (destruct P as [P Q]; split; [exact P|apply NR; [exact Ln|exact Q]]; fail).
        destruct P as (Q1 & o' & Q2 & Q3). split; [auto|]. exists o'. split; [auto|]. apply in_or_app. now right.
    + intros o [<-|I]; [lia|]. apply C4 in I. lia.
    + unfold qroots. rewrite map_app. 
      assert (forall l m : list nat, NoDup l -> NoDup m -> (forall x, In x l -> ~ In x m) -> NoDup (l ++ m)) as NDA.
      { clear. induction l as [|x l IH]; intros m H1 H2 H3; [auto|]. inversion H1; subst. cbn. constructor.
        - intros I. apply in_app_or in I. destruct I; [tauto|]. apply (H3 x); cbn; auto.
        - apply IH; auto. intros y I. apply H3. now right. }
      apply NDA; auto. intros x I1 I2. apply A5 in I1. apply C6 in I2. lia.
    + intros n I. unfold qroots in I. rewrite map_app in I. apply in_app_or in I. destruct I as [I|I].
      * apply A5 in I. split; [lia|]. intros e Ie. apply in_app_or in Ie. destruct Ie as [Ie|Ie].
        -- destruct Ie as [<-|Ie]; [cbn; lia|]. unfold tys in Ie. apply in_map_iff in Ie. destruct Ie as (m & <- & _). cbn. lia.
        -- destruct C1 as (_ & _ & _ & F). rewrite Forall_forall in F. destruct (F _ Ie) as (_ & _ & [-> | L]); lia.
      * destruct (C6 _ I) as [L K]. split; [lia|]. intros e Ie. apply in_app_or in Ie. destruct Ie as [Ie|Ie]; [|auto].
        destruct Ie as [<-|Ie]; [cbn; lia|]. unfold tys in Ie. apply in_map_iff in Ie. destruct Ie as (m & <- & _). cbn. lia.
    + intros n bs' o I. apply in_app_or in I. destruct I as [I|I].
      * destruct (A6 _ _ _ I) as (e & I1 & I2). exists b, e. split; [now left|auto].
      * destruct (C7 _ _ _ I) as (b' & e & I1 & I2). exists b', e. split; [now right|auto].
    + intros n t' L N. destruct (le_lt_dec (sz g2) n) as [L2|L2].
      * destruct (C9 n t' L2 N) as (b' & I & O). exists b'. split; [now right|auto].
      * assert (N2 : node g2 n = Some (NOp t')).
        { destruct C1 as ((xs & X) & _). unfold node in *. rewrite X, nth_error_app1 in N; auto. }
        destruct (Nat.eq_dec n (sz g)) as [->|ne].
        -- exists b. split; [now left|]. assert (Y : node g2 (sz g) = Some (NOp t)).
           { eapply grows_node; [exact A2|]. unfold node, g1. cbn. rewrite nth_error_app2, Nat.sub_diag by lia. reflexivity. }
           congruence.
        -- exfalso. assert (X : In n (seq (sz g1) (length (blk_terms b)))) by (apply in_seq; lia).
           destruct (In_nth_error _ _ X) as [j J].
           assert (Q : exists t1, nth_error (blk_terms b) j = Some t1 /\ pre_term g2 q2 n t1).
           { exact (Forall2_nth _ _ _ _ _ A3 _ _ J). }
           destruct Q as (t1 & _ & Q). unfold pre_term in Q.
           destruct t1 as [[x|z x|c x|x|e]|x]; try (destruct Q as [(nd & Q1 & Q2) _]; cbn in Q1; try (injection Q1 as <-; congruence)).
           ++ assert (F : forall nd', term_node (TArg (APound c x)) = Ok nd' -> exists p, nd' = NPound p x).
              { clear. intros nd' E. cbn in E.
                repeat (match type of E with match ?c with _ => _ end = _ => destruct c end; try discriminate).
                all: injection E as <-; eauto. }
              destruct (F _ Q1) as (p & ->). congruence.
           ++ destruct Q as [Q _]. congruence.
    + rewrite qsize_app, size_blocks_cons. assert (X := size_block_terms b). lia.
Qed.

Lemma term_node_pound : forall c x nd, term_node (TArg (APound c x)) = Ok nd -> exists p, nd = NPound p x /\
  In (c, p) [(110%N, PNil); (116%N, PTrue); (102%N, PFalse); (105%N, PInput); (98%N, PNewline)].
Proof.
  intros c x nd E. cbn in E.
  repeat (match type of E with match ?c with _ => _ end = _ => destruct c end; try discriminate).
  all: injection E as <-; eexists; split; [reflexivity|]; cbn; tauto.
Qed.

(** ** The whole expression *)
Definition occurs_bs (op : str) (bs : list block) : Prop :=
  exists b, In b bs /\ ((exists t, blk_op b = Ok t /\ tg_str t = op) \/ exists e, In (TArg (AExpr e)) (blk_terms b) /\ occurs op e).
Lemma occurs_bs_expr : forall op e, occurs_bs op (ex_blocks e) <-> occurs op e.
Proof.
  intros op e. split.
  - intros (b & I & [(t & E & <-)|(e' & I' & O)]); [eapply occurs_here; eauto|eapply occurs_sub; eauto].
  - intros H. inversion H; subst; exists b; (split; [auto|]); [left; eauto|right; eauto].
Qed.

Lemma grows_children_same : forall g g' f ys n, grows g g' f ys -> n < sz g -> ~ f n -> children g' n = children g n.
Proof.
  intros g g' f ys n G L N. rewrite (grows_children_new g g' f ys n G), (filter_none _ _ ys); [now rewrite app_nil_r|].
  intros e I. destruct G as (_ & _ & _ & F). rewrite Forall_forall in F. destruct (F _ I) as (_ & _ & [X|X]); apply Nat.eqb_neq; [|lia].
  intros E. rewrite E in X. auto.
Qed.

Lemma flat_loop_spec : forall fuel g q cs g' cs', flat_loop s fuel g q cs = Ok (g', cs') -> bound g -> NoDup (qroots q) ->
  (forall n, In n (qroots q) -> n < sz g /\ children g n = []) ->
  exists ys, grows g g' (fun n => In n (qroots q)) ys /\
  (forall n bs o, In (n, bs, o) q -> Forall2 (shows_block g') (children g' n) bs) /\
  (forall n t, sz g <= n -> node g' n = Some (NOp t) -> exists r bs o, In (r, bs, o) q /\ occurs_bs (tg_str t) bs).
Proof.
  induction fuel as [|fuel IH]; intros g q cs g' cs' H B ND HR; (destruct q as [|[[root bs] o] q]; cbn [flat_loop] in H; [|try discriminate]).
  1,2: injection H as <- <-; exists []; split; [apply grows_nil|]; split; [intros n bs o []|];
       intros n t L N; apply nth_error_None in L; unfold node in N; congruence.
  destruct (add_blocks s g root bs) as [[[g1 q1] c1]| |] eqn:E1; cbn [rbind fst snd] in H; try discriminate.
  assert (HR0 : root < sz g) by (apply HR; now left).
  destruct (add_blocks_spec _ _ _ _ _ _ E1 HR0 B) as (ys & os & A1 & A2 & A3 & A4 & A5 & A6 & A7 & A8 & _).
  assert (B1 := grows_bound _ _ _ _ B A1). assert (S1 := grows_size _ _ _ _ A1).
  inversion ND as [|x l NI ND']; subst.
  assert (RA : qroots (q ++ q1) = qroots q ++ qroots q1) by (unfold qroots; apply map_app).
  assert (CH : forall n, In n (qroots q) -> children g1 n = []).
  { intros n I. destruct (HR n (or_intror I)) as [L C].
    rewrite (grows_children_same _ _ _ _ n A1 L); [auto|]. intros ->. now apply NI. }
  destruct (IH _ _ _ _ _ H B1) as (ys2 & G2 & SH & OC).
  { rewrite RA. assert (forall l m : list nat, NoDup l -> NoDup m -> (forall x, In x l -> ~ In x m) -> NoDup (l ++ m)) as NDA.
    { clear. induction l as [|x l IH]; intros m H1 H2 H3; [auto|]. inversion H1; subst. cbn. constructor.
      - intros I. apply in_app_or in I. destruct I; [tauto|]. apply (H3 x); cbn; auto.
      - apply IH; auto. intros y I. apply H3. now right. }
    apply NDA; auto. intros x I1 I2. destruct (HR x (or_intror I1)). apply A6 in I2. lia. }
  { intros n I. rewrite RA in I. apply in_app_or in I. destruct I as [I|I].
    - split; [|auto]. destruct (HR n (or_intror I)). lia.
    - destruct (A6 _ I) as [L K]. split; [lia|]. rewrite (grows_children_new _ _ _ _ n A1), (children_none g n B) by lia.
      rewrite filter_none; [reflexivity|]. intros e Ie. apply Nat.eqb_neq. auto. }
  assert (N2 : forall m x, node g1 m = Some x -> node g' m = Some x) by (intros; eapply grows_node; eauto).
  exists (ys ++ ys2). split; [|split].
  - eapply grows_app; eauto; cbn.
    + intros n ->. auto.
    + intros n I. rewrite RA in I. apply in_app_or in I. destruct I as [I|I]; [auto|]. right. apply A6 in I. lia.
  - intros n bs' o' [I|I]; [|apply (SH n bs' o'); apply in_or_app; now left].
    injection I as <- <- <-.
    assert (C' : children g' root = os).
    { rewrite (grows_children_same _ _ _ _ root G2); [rewrite A2; destruct (HR root (or_introl eq_refl)) as [_ ->]; reflexivity|lia|].
      rewrite RA. intros I. apply in_app_or in I. destruct I as [I|I]; [auto|]. apply A6 in I. lia. }
    rewrite C'. apply (Forall2_impl_in _ _ _ _ _ _ A3). intros p b Ip Ib (t & P1 & P2 & P3 & P4).
    assert (Lp := A4 _ Ip). assert (Lp' : p < sz g1) by (apply nth_error_Some; unfold node in P2; congruence).
    apply shows_block_intro with t; auto.
    rewrite (grows_children_same _ _ _ _ p G2 Lp').
    2: { rewrite RA. intros I. apply in_app_or in I. destruct I as [I|I]; [|auto]. destruct (HR p (or_intror I)). lia. }
    apply (Forall2_impl_in _ _ _ _ _ _ P4). intros m t' Im It P. unfold pre_term in P.
    destruct t' as [[x|z x|c x|x|e]|x]; try (destruct P as [(nd & Q1 & Q2) _]; try (cbn in Q1; injection Q1 as <-; constructor; apply N2; exact Q2)).
    + apply term_node_pound in Q1. destruct Q1 as (pp & -> & Q1). apply shows_pound with pp; auto.
    + destruct P as (Q1 & o' & Q2 & Q3). constructor. constructor; [now apply N2|]. apply (SH m (ex_blocks e) o'). apply in_or_app. now right.
  - intros n t L N. destruct (le_lt_dec (sz g1) n) as [L1|L1].
    + destruct (OC n t L1 N) as (r & bs' & o' & I & O). apply in_app_or in I. destruct I as [I|I].
      * exists r, bs', o'. split; [now right|auto].
      * exists root, bs, o. split; [now left|]. destruct (A7 _ _ _ I) as (b & e & I1 & I2 & ->). exists b. split; [auto|].
        right. exists e. split; [auto|]. now apply occurs_bs_expr.
    + assert (N1 : node g1 n = Some (NOp t)).
      { destruct G2 as ((xs & X) & _). unfold node in *. rewrite X, nth_error_app1 in N; auto. }
      destruct (A8 n t L N1) as (b & I & O). exists root, bs, o. split; [now left|]. exists b. split; [auto|]. left. eauto.
Qed.

Lemma flatten_spec : forall g e cs root g' cs', flatten_expr s g e cs = Ok (root, g', cs') -> bound g ->
  root = sz g /\ bound g' /\ ext g g' /\ shows g' root e /\
  (exists xs ys, g_nodes g' = g_nodes g ++ NExpr (ex_tag e) :: xs /\ g_edges g' = g_edges g ++ ys /\
     map e_dst ys = seq (S (sz g)) (length xs) /\
     Forall (fun e => e_rel e = RNormal /\ e_src e < e_dst e /\ sz g <= e_src e) ys) /\
  (forall n t, sz g <= n -> node g' n = Some (NOp t) -> occurs (tg_str t) e).
Proof.
  intros g e cs root g' cs' H B. unfold flatten_expr in H. cbn [add_node] in H.
  set (g1 := Graph (g_nodes g ++ [NExpr (ex_tag e)]) (g_edges g)) in *.
  destruct (map_ty_tag s (ex_out e)) as [o| |]; cbn [rbind] in H; try discriminate.
  destruct (flat_loop s (size_expr e) g1 [(sz g, ex_blocks e, o)] cs) as [[g2 c2]| |] eqn:E; cbn [rbind fst snd] in H; try discriminate.
  injection H as <- <- <-.
  assert (S1 : sz g1 = S (sz g)) by (cbn; rewrite app_length; cbn; lia).
  assert (B1 : bound g1). { intros x I. specialize (B x I). lia. }
  destruct (flat_loop_spec _ _ _ _ _ _ E B1) as (ys & G & SH & OC).
  { constructor; [intros []|constructor]. }
  { intros n [<-|[]]. cbn [fst]. split; [lia|]. change (children g1 (sz g)) with (children g (sz g)). apply (children_none g _ B). lia. }
  assert (Sg := grows_size _ _ _ _ G).
  assert (G0 := G). destruct G as ((xs & N) & Ed & D & F).
  assert (LX : length xs = sz g2 - sz g1) by (rewrite N, app_length; lia).
  split; [auto|]. split; [eapply grows_bound; eauto|]. split; [|split; [|split]].
  - exists (NExpr (ex_tag e) :: xs), ys. split; [rewrite N; cbn [g_nodes g1]; rewrite <- app_assoc; reflexivity|]. split; [exact Ed|].
    intros x I. rewrite Forall_forall in F. destruct (F _ I) as (R & L & O).
    assert (X : sz g <= e_src x) by (destruct O as [[O|[]]|O]; cbn in *; lia). lia.
  - constructor; [|apply (SH (sz g) (ex_blocks e) o); now left].
    eapply grows_node; [exact G0|]. unfold node. cbn. rewrite nth_error_app2, Nat.sub_diag by lia. reflexivity.
  - exists xs, ys. split; [rewrite N; cbn [g_nodes g1]; rewrite <- app_assoc; reflexivity|]. split; [exact Ed|].
    split; [rewrite D, LX, S1; reflexivity|]. eapply Forall_impl; [|exact F]. cbn. intros x (R & L & O). split; [auto|]. split; [auto|].
    destruct O as [[O|[]]|O]; [|cbn in *; rewrite app_length in O; cbn in O]; lia.
  - intros n t L N'. destruct (Nat.eq_dec n (sz g)) as [->|ne].
    + exfalso. assert (X : node g2 (sz g) = Some (NExpr (ex_tag e))).
      { eapply grows_node; [exact G0|]. unfold node. cbn. rewrite nth_error_app2, Nat.sub_diag by lia. reflexivity. }
      congruence.
    + destruct (OC n t ltac:(lia) N') as (r & bs & o' & [I|[]] & O). injection I as <- <- <-. now apply occurs_bs_expr.
Qed.

(** Enough fuel. *)
Lemma map_ty_tag_fuel : forall t, map_ty_tag s t <> Err no_fuel.
Proof. intros [t|]; cbn; [|discriminate]. destruct (get_type _ _); discriminate. Qed.
Lemma term_node_fuel : forall t, term_node t <> Err no_fuel.
Proof.
  intros [[x|z x|c x|x|e]|x] E; try discriminate E. cbn in E.
  repeat (match type of E with match ?c with _ => _ end = _ => destruct c end; try discriminate).
Qed.
Lemma add_terms_fuel : forall ts g op, add_terms s g op ts <> Err no_fuel.
Proof.
  induction ts as [|t ts IH]; intros g op H; cbn [add_terms] in H; [discriminate|].
  destruct (term_node t) as [nd|x|] eqn:Et; cbn [rbind] in H; try discriminate.
  2: { injection H as ->. now apply (term_node_fuel t). }
  cbn [add_node] in H.
  match type of H with rbind ?h _ = _ => destruct h as [here|x|] eqn:Eh; cbn [rbind] in H; try discriminate end.
  - match type of H with rbind ?h _ = _ => destruct h as [r|x|] eqn:Er; cbn [rbind] in H; try discriminate end.
    injection H as ->. now apply IH in Er.
  - injection H as ->. destruct t as [[y|z y|c y|y|e]|y]; try discriminate Eh.
    destruct (map_ty_tag s (ex_out e)) eqn:Em; cbn in Eh; try discriminate. injection Eh as ->. now apply map_ty_tag_fuel in Em.
Qed.
Lemma add_blocks_fuel : forall bs g root, add_blocks s g root bs <> Err no_fuel.
Proof.
  induction bs as [|b bs IH]; intros g root H; cbn [add_blocks] in H; [discriminate|].
  destruct (blk_op b) as [t|x|] eqn:Eop; cbn [rbind] in H; try discriminate.
  2: { destruct b as [op ? ? ?|op ? ? ?]; cbn in Eop; [destruct (is_op op) as [[]| |]|]; discriminate. }
  cbn [add_node] in H.
  match type of H with rbind ?h _ = _ => destruct h as [r|x|] eqn:E1; cbn [rbind] in H; try discriminate end;
    [|injection H as ->; now apply map_ty_tag_fuel in E1].
  match type of H with rbind ?h _ = _ => destruct h as [r2|x|] eqn:E2; cbn [rbind] in H; try discriminate end;
    [|injection H as ->; now apply map_ty_tag_fuel in E2].
  match type of H with rbind ?h _ = _ => destruct h as [r3|x|] eqn:E3; cbn [rbind] in H; try discriminate end;
    [|injection H as ->; now apply add_terms_fuel in E3].
  match type of H with rbind ?h _ = _ => destruct h as [r4|x|] eqn:E4; cbn [rbind] in H; try discriminate end.
  injection H as ->. now apply IH in E4.
Qed.
Lemma flat_loop_fuel : forall fuel g q cs, qsize q <= fuel -> bound g -> (forall n, In n (qroots q) -> n < sz g) ->
  flat_loop s fuel g q cs <> Err no_fuel.
Proof.
  induction fuel as [|fuel IH]; intros g q cs L B HR H; (destruct q as [|[[root bs] o] q]; cbn [flat_loop] in H; [discriminate|]);
    cbn [qsize fst snd] in L; [lia|].
  destruct (add_blocks s g root bs) as [[[g1 q1] c1]|x|] eqn:E1; cbn [rbind fst snd] in H; try discriminate.
  2: { injection H as ->. now apply add_blocks_fuel in E1. }
  destruct (add_blocks_spec _ _ _ _ _ _ E1 ltac:(apply HR; now left) B) as (ys & os & A1 & A2 & A3 & A4 & A5 & A6 & A7 & A8 & A9).
  revert H. apply IH.
  - rewrite qsize_app. lia.
  - eapply grows_bound; eauto.
  - assert (S1 := grows_size _ _ _ _ A1). intros n I. unfold qroots in I. rewrite map_app in I. apply in_app_or in I. destruct I as [I|I].
    + specialize (HR n (or_intror I)). lia.
    + apply A6 in I. lia.
Qed.
Lemma flatten_fuel : forall g e cs, bound g -> flatten_expr s g e cs <> Err no_fuel.
Proof.
  intros g e cs B H. unfold flatten_expr in H. cbn [add_node] in H.
  destruct (map_ty_tag s (ex_out e)) as [o|x|] eqn:Em; cbn [rbind] in H; try discriminate.
  2: { injection H as ->. now apply map_ty_tag_fuel in Em. }
  match type of H with rbind ?h _ = _ => destruct h as [r|x|] eqn:E; cbn [rbind] in H; try discriminate end.
  injection H as ->. revert E. apply flat_loop_fuel.
  - cbn [qsize fst snd]. rewrite size_expr_eq. lia.
  - intros x I. cbn [g_edges] in I. specialize (B x I). cbn [g_nodes]. rewrite app_length. cbn. lia.
  - intros n [<-|[]]. cbn. rewrite app_length. cbn. lia.
Qed.
End S.
