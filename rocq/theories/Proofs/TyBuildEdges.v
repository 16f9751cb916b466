(** The edges of the first type graph. *)
From Coq Require Import String List ZArith NArith Bool Arith Lia.
From Verif Require Import Model.Base Model.Value Model.Ast Model.Registry Model.AstGraph Model.TyBuild Spec.AstGraphSpec Spec.RegistrySpec Spec.TyBuildSpec.
From Verif Require Import Proofs.AstFlatProofs Proofs.AstExpandProofs Proofs.AstGraphProofs Proofs.AstLookupProofs Proofs.AstTypedProofs Proofs.TyBuildBase.
From Verif Require Model.TyGraph.
Import ListNotations.

Definition has (tg : tg_t) (a b : nat) (f : TyGraph.flow) : Prop := In (TyGraph.Build_edge a b f) (TyGraph.edges tg).
Definition more (tg tg' : tg_t) : Prop := TyGraph.nodes tg' = TyGraph.nodes tg /\ TyGraph.anon_tys tg' = TyGraph.anon_tys tg /\
  forall a b f, has tg a b f -> has tg' a b f.
Lemma more_refl : forall tg, more tg tg. Proof. intros tg. repeat split. auto. Qed.
Lemma more_trans : forall a b c, more a b -> more b c -> more a c.
Proof. intros a b c (A1 & A2 & A3) (B1 & B2 & B3). repeat split; [congruence|congruence|auto]. Qed.

Lemma add_flow_has : forall tg e a b f, has (add_flow tg e) a b f <-> has tg a b f \/ (a, b, f) = e.
Proof.
  intros tg [[x y] z] a b f. unfold has, add_flow, TyGraph.add_edge. cbn [TyGraph.edges fst snd]. rewrite in_app_iff. cbn [In]. split.
  - intros [H|[H|[]]]; [auto|right]. injection H as <- <- <-. reflexivity.
  - intros [H|H]; [auto|right; left]. injection H as -> -> ->. reflexivity.
Qed.
Lemma add_flow_more : forall tg e, more tg (add_flow tg e).
Proof. intros tg e. repeat split. intros a b f H. apply add_flow_has. now left. Qed.
Lemma add_flows_has : forall l tg a b f, has (add_flows tg l) a b f <-> has tg a b f \/ In (a, b, f) l.
Proof.
  induction l as [|e l IH]; intros tg a b f; cbn [add_flows fold_left In]; [tauto|]. change (fold_left add_flow l ?x) with (add_flows x l).
  rewrite IH, add_flow_has. split; intros H; [destruct H as [[H|H]|H]|destruct H as [H|[H|H]]]; auto.
Qed.
Lemma add_flows_more : forall l tg, more tg (add_flows tg l).
Proof. induction l as [|e l IH]; intros tg; [apply more_refl|]. eapply more_trans; [apply add_flow_more|apply IH]. Qed.

Lemma joined_has : forall tg a b, TyGraph.joined tg a b = true <-> exists f, has tg a b f.
Proof.
  intros tg a b. unfold TyGraph.joined. rewrite existsb_exists. split.
  - intros ([x y z] & I & H). cbn in H. apply andb_prop in H. destruct H as (A & B). apply Nat.eqb_eq in A, B. subst. exists z. exact I.
  - intros (f & H). eexists. split; [exact H|]. cbn. now rewrite !Nat.eqb_refl.
Qed.
Lemma link_spec' : forall args tg o c, let tg' := fst (TyGraph.link_args tg o args c) in
  more tg tg' /\ (forall a b f, has tg' a b f -> has tg a b f \/ a = o /\ In b args /\ f = TyGraph.II) /\
  forall b, In b args -> has tg' o b TyGraph.II \/ exists f, has tg o b f.
Proof.
  induction args as [|x args IH]; intros tg o c; cbn [TyGraph.link_args].
  - split; [apply more_refl|]. split; [auto|intros b []].
  - destruct (TyGraph.joined tg o x) eqn:J.
    + destruct (IH tg o c) as (A & B & C). split; [exact A|]. split.
      * intros a b f H. destruct (B a b f H) as [H'|(-> & I & ->)]; [auto|right]. split; [auto|]. split; [now right|auto].
      * intros b [<-|I]; [right; now apply joined_has|auto].
    + destruct (IH (add_flow tg (o, x, TyGraph.II)) o true) as (A & B & C).
      change (TyGraph.add_edge tg o x TyGraph.II) with (add_flow tg (o, x, TyGraph.II)). split; [eapply more_trans; [apply add_flow_more|exact A]|]. split.
      * intros a b f H. destruct (B a b f H) as [H'|(-> & I & ->)].
        -- apply add_flow_has in H'. destruct H' as [H'|H']; [auto|right]. injection H' as -> -> ->. split; [auto|]. split; [now left|auto].
        -- right. split; [auto|]. split; [now right|auto].
      * intros b [<-|I].
        -- left. apply A. apply add_flow_has. now right.
        -- destruct (C b I) as [H|(f & H)]; [now left|]. apply add_flow_has in H. destruct H as [H|H]; [right; eauto|].
           injection H as -> ->. left. apply A. apply add_flow_has. now right.
Qed.

Lemma rmapM_all : forall A B (f : A -> res B) (P : A -> B -> Prop) l, (forall x, In x l -> exists y, f x = Ok y /\ P x y) ->
  exists ys, rmapM f l = Ok ys /\ Forall2 P l ys.
Proof.
  induction l as [|x l IH]; intros H; [exists []; split; [reflexivity|constructor]|].
  destruct (H x (or_introl eq_refl)) as (y & E & Q). destruct IH as (ys & E2 & F); [intros; apply H; now right|].
  exists (y :: ys). cbn [rmapM]. rewrite E. cbn [rbind]. rewrite E2. split; [reflexivity|now constructor].
Qed.
Lemma Forall2_in_l : forall A B (P : A -> B -> Prop) l m x, Forall2 P l m -> In x l -> exists y, In y m /\ P x y.
Proof. induction 1 as [|? ? ? ? ? ? IHForall2]; intros I; [destruct I|]; destruct I as [->|I]; [eexists; split; [now left|eassumption]|]. destruct (IHForall2 I) as (z & Z & Q). exists z. split; [now right|auto]. Qed.
Lemma Forall2_in_r : forall A B (P : A -> B -> Prop) l m y, Forall2 P l m -> In y m -> exists x, In x l /\ P x y.
Proof. induction 1 as [|? ? ? ? ? ? IHForall2]; intros I; [destruct I|]; destruct I as [->|I]; [eexists; split; [now left|eassumption]|]. destruct (IHForall2 I) as (z & Z & Q). exists z. split; [now right|auto]. Qed.

Lemma nth_error_rev : forall A (l : list A) j, j < length l -> nth_error (rev l) j = nth_error l (length l - S j).
Proof.
  induction l as [|x l IH]; intros j L; cbn in L; [lia|]. cbn [rev length]. destruct (Nat.eq_dec j (length l)) as [->|NE].
  - rewrite nth_error_app2 by (rewrite rev_length; lia). rewrite rev_length, Nat.sub_diag. replace (S (length l) - S (length l)) with 0 by lia. reflexivity.
  - rewrite nth_error_app1 by (rewrite rev_length; lia). rewrite IH by lia. replace (S (length l) - S j) with (S (length l - S j)) by lia. reflexivity.
Qed.
Lemma in_combine_nth : forall A B (l : list A) (k : list B) x y, In (x, y) (combine l k) <-> exists j, nth_error l j = Some x /\ nth_error k j = Some y.
Proof.
  induction l as [|a l IH]; intros [|b k] x y; cbn; try (split; [tauto|intros ([|j] & H1 & H2); discriminate]).
  rewrite IH. split.
  - intros [H|(j & H)]; [injection H as -> ->; now exists 0|now exists (S j)].
  - intros ([|j] & H1 & H2); [left; cbn in *; congruence|right; now exists j].
Qed.
Lemma neighbours_in_rev : forall (c : list nat) a b, In (a, b) (combine (skipn 1 (rev c)) (rev c)) <->
  exists i, nth_error c i = Some a /\ nth_error c (S i) = Some b.
Proof.
  intros c a b. rewrite in_combine_nth.
  assert (S1 : forall j, nth_error (skipn 1 (rev c)) j = nth_error (rev c) (S j)) by (intros; destruct (rev c); [destruct j|]; reflexivity).
  split.
  - intros (j & A & B). rewrite S1 in A. assert (L : S j < length (rev c)) by (apply nth_error_Some; congruence). rewrite rev_length in L.
    rewrite nth_error_rev in A, B by lia. exists (length c - S (S j)). split; [exact A|]. replace (S (length c - S (S j))) with (length c - S j) by lia. exact B.
  - intros (i & A & B). assert (L : S i < length c) by (apply nth_error_Some; congruence). exists (length c - S (S i)). rewrite S1.
    rewrite !nth_error_rev by lia. split; [rewrite <- A|rewrite <- B]; f_equal; lia.
Qed.

Lemma in_indices : forall g p n, In n (indices g p) <-> exists x, node g n = Some x /\ p x = true.
Proof.
  intros g p n. unfold indices. rewrite filter_In, in_seq. split.
  - intros (_ & H). destruct (node g n) as [x|]; [eauto|discriminate].
  - intros (x & N & H). rewrite N. split; [|exact H]. assert (n < length (g_nodes g)); [|lia]. apply nth_error_Some. unfold node in N. congruence.
Qed.
Lemma is_expr_true : forall x, is_expr x = true -> exists t, x = NExpr t. Proof. destruct x; try discriminate. eauto. Qed.
Lemma is_def_true : forall x, is_def x = true -> exists t ps, x = NDef t ps. Proof. destruct x; try discriminate. eauto. Qed.
Lemma is_op_true : forall x, is_op x = true -> exists t, x = NOp t. Proof. destruct x; try discriminate. eauto. Qed.
Lemma is_input_true : forall x, is_input x = true -> exists t, x = NPound PInput t. Proof. destruct x as [| | | | | |[]| |]; try discriminate. eauto. Qed.

Section G.
Variables (m : impls) (g : graph).
Hypothesis M : made m g.

Lemma first_in : forall a b f, In (a, b, f) (first_edges g) <->
  exists t, node g a = Some (NExpr t) /\ nth_error (children g a) 0 = Some b /\ f = TyGraph.II.
Proof.
  intros a b f. unfold first_edges. rewrite in_flat_map. split.
  - intros (e & I & H). apply in_indices in I. destruct I as (x & N & X). apply is_expr_true in X. destruct X as (t & ->).
    rewrite (op_neighbors_eq m g M e t N), rev_involutive in H. destruct (children g e) as [|o l] eqn:C; [destruct H|].
    destruct H as [H|[]]. injection H as <- <- <-. exists t. split; [auto|]. rewrite C. auto.
  - intros (t & N & C & ->). exists a. split; [apply in_indices; eauto|]. rewrite (op_neighbors_eq m g M a t N), rev_involutive.
    destruct (children g a); [discriminate|]. injection C as ->. now left.
Qed.
Lemma last_in : forall a b f, In (a, b, f) (last_edges g) <->
  exists t l, node g b = Some (NExpr t) /\ children g b = l ++ [a] /\ f = TyGraph.OO.
Proof.
  intros a b f. unfold last_edges. rewrite in_flat_map. split.
  - intros (e & I & H). apply in_indices in I. destruct I as (x & N & X). apply is_expr_true in X. destruct X as (t & ->).
    rewrite (op_neighbors_eq m g M e t N) in H. destruct (rev (children g e)) as [|o l] eqn:C; [destruct H|].
    destruct H as [H|[]]. injection H as <- <- <-. exists t, (rev l). split; [auto|]. split; [|auto].
    rewrite <- (rev_involutive (children g e)), C. reflexivity.
  - intros (t & l & N & C & ->). exists b. split; [apply in_indices; eauto|]. rewrite (op_neighbors_eq m g M b t N), C, rev_app_distr. now left.
Qed.
Lemma pipe_in : forall a b f, In (a, b, f) (pipe_edges g) <->
  exists e t i, node g e = Some (NExpr t) /\ nth_error (children g e) i = Some a /\ nth_error (children g e) (S i) = Some b /\ f = TyGraph.OI.
Proof.
  intros a b f. unfold pipe_edges. rewrite in_flat_map. split.
  - intros (e & I & H). apply in_indices in I. destruct I as (x & N & X). apply is_expr_true in X. destruct X as (t & ->).
    rewrite (op_neighbors_eq m g M e t N) in H. apply in_map_iff in H. destruct H as ([u v] & E & H). cbn [fst snd] in E. injection E as <- <- <-.
    apply neighbours_in_rev in H. destruct H as (i & A & B). exists e, t, i. auto.
  - intros (e & t & i & N & A & B & ->). exists e. split; [apply in_indices; eauto|]. rewrite (op_neighbors_eq m g M e t N). apply in_map_iff.
    exists (a, b). split; [reflexivity|]. apply neighbours_in_rev. eauto.
Qed.
Lemma input_ok : exists l, input_edges g = Ok l /\ forall a b f, In (a, b, f) l <->
  exists t, node g b = Some (NPound PInput t) /\ In b (children g a) /\ (f = TyGraph.II \/ f = TyGraph.IO).
Proof.
  assert (Q : forall n t, node g n = Some (NPound PInput t) -> exists o, arg_op g n = Ok o /\ In n (children g o) /\ forall o', In n (children g o') -> o' = o).
  { intros n t N. destruct (term_parent m g M n _ N I) as (o & t' & _ & A & B & C); [| |eauto].
    - intros ->. destruct (m_root _ _ M) as (r & R). congruence.
    - intros x; discriminate. }
  unfold input_edges. destruct (rmapM_all _ _ (fun n => let? o := arg_op g n in Ok [(o, n, TyGraph.II); (o, n, TyGraph.IO)])
    (fun n y => exists o, In n (children g o) /\ (forall o', In n (children g o') -> o' = o) /\ y = [(o, n, TyGraph.II); (o, n, TyGraph.IO)]) (indices g is_input))
    as (ys & E & F).
  { intros n I. apply in_indices in I. destruct I as (x & N & X). apply is_input_true in X. destruct X as (t & ->).
    destruct (Q n t N) as (o & A & B & C). rewrite A. cbn [rbind]. eauto 6. }
  rewrite E. cbn [rbind]. eexists. split; [reflexivity|]. intros a b f. rewrite in_concat. split.
  - intros (y & Iy & H). destruct (Forall2_in_r _ _ _ _ _ _ F Iy) as (n & In' & o & B & C & ->). apply in_indices in In'. destruct In' as (x & N & X).
    apply is_input_true in X. destruct X as (t & ->). exists t. destruct H as [H|[H|[]]]; injection H as <- <- <-; auto.
  - intros (t & N & B & H). assert (Ib : In b (indices g is_input)) by (apply in_indices; eauto).
    destruct (Forall2_in_l _ _ _ _ _ _ F Ib) as (y & Iy & o & B' & C & ->). exists [(o, b, TyGraph.II); (o, b, TyGraph.IO)]. split; [auto|].
    rewrite (C a B). destruct H as [->| ->]; cbn; auto.
Qed.

(** Arguments to be linked. *)
Definition evaluated (o i : nat) : Prop :=
  forall k c, In (k, c) (keyed g o) -> exists e ps x ty, node g c = Some (NDef e ps) /\ nth_error ps i = Some (x, ty) /\ ty <> PExpr.
Lemma min_all : forall l n i, i < fold_left Nat.min l n <-> i < n /\ forall k, In k l -> i < k.
Proof.
  induction l as [|x l IH]; intros n i; cbn [fold_left]; [cbn; tauto|]. rewrite IH, Nat.min_glb_lt_iff. cbn [In]. split.
  - intros ((A & B) & C). split; [auto|]. intros k [<-|H]; auto.
  - intros (A & B). split; [split; auto|]. intros k H. auto.
Qed.
Lemma link_list_ok : forall o, keyed g o <> [] -> forallb (at_is g is_def) (cmds g o) = true ->
  exists l, link_list g (cmds g o) = Ok (o, l) /\ forall a, In a l <-> exists i, i < 256 /\ nth_error (args_below g o) i = Some a /\ evaluated o i.
Proof.
  intros o NE A. assert (D : forall c, In c (cmds g o) -> exists e ps, node g c = Some (NDef e ps)).
  { intros c Ic. rewrite forallb_forall in A. specialize (A c Ic). unfold at_is in A. destruct (node g c) as [x|]; [|discriminate].
    apply is_def_true in A. destruct A as (e & ps & ->). eauto. }
  assert (K : forall c, In c (cmds g o) <-> exists k, In (k, c) (keyed g o)).
  { intros c. rewrite cmds_eq, <- in_rev, in_map_iff. split; [intros ([k c'] & <- & H); eauto|intros (k & H); exists (k, c); auto]. }
  unfold link_list. destruct (cmds g o) as [|d ds] eqn:E.
  { exfalso. destruct (keyed g o) as [|[k c] l] eqn:Ek; [auto|]. destruct (proj2 (K c)). exists k. now left. }
  destruct (proj1 (K d) (or_introl eq_refl)) as (kd & Kd). destruct (D d (or_introl eq_refl)) as (ed & psd & Nd).
  destruct (cmd_parent_ok m g M d _ Nd I) as (o' & t' & k' & No & P & K' & _ & U). destruct (U _ _ Kd) as (<- & <-). rewrite P. cbn [rbind].
  rewrite (get_args_all m g M _ _ _ Kd). cbn [rbind].
  destruct (rmapM_all _ _ (def_params g) (fun c ps => exists e, node g c = Some (NDef e ps)) (d :: ds)) as (params & Ep & F).
  { intros c Ic. destruct (D c Ic) as (e & ps & N). exists ps. unfold def_params. rewrite N. eauto. }
  rewrite Ep. cbn [rbind]. set (args := firstn 256 (args_below g o)).
  set (mm := Nat.min _ _). set (is := filter _ (seq 0 mm)).
  assert (Mm : forall i, i < mm <-> i < length args /\ forall ps, In ps params -> i < length ps).
  { intros i. unfold mm. rewrite Nat.min_glb_lt_iff. inversion F as [|? ps ? pss Fp Fps]; subst. cbn [map]. rewrite min_all. cbn [In]. split.
    - intros ((B1 & B2) & B3). split; [auto|]. intros q [<-|H]; [auto|]. apply B2. now apply in_map.
    - intros (B1 & B2). split; [|auto]. split; [auto|]. intros k H. apply in_map_iff in H. destruct H as (q & <- & H). auto. }
  assert (Is : forall i, In i is <-> i < length args /\ evaluated o i).
  { intros i. unfold is. rewrite filter_In, in_seq, forallb_forall. split.
    - intros ((_ & L) & H). apply Mm in L. destruct L as (L & _). split; [auto|]. intros k c Kc. assert (Ic : In c (d :: ds)) by (apply K; eauto).
      destruct (Forall2_in_l _ _ _ _ _ _ F Ic) as (ps & Ips & e & N). specialize (H ps Ips). destruct (nth_error ps i) as [[x ty]|] eqn:Ei; [|discriminate].
      exists e, ps, x, ty. split; [auto|]. split; [auto|]. intros ->. discriminate.
    - intros (L & Ev).
      assert (Q : forall ps, In ps params -> exists x ty, nth_error ps i = Some (x, ty) /\ ty <> PExpr).
      { intros ps Ips. destruct (Forall2_in_r _ _ _ _ _ _ F Ips) as (c & Ic & e & N). apply K in Ic. destruct Ic as (k & Kc).
        destruct (Ev k c Kc) as (e' & ps' & x & ty & N' & Ex & T). rewrite N in N'. injection N' as <- <-. eauto. }
      split.
      + split; [lia|]. apply Mm. split; [auto|]. intros ps Ips. destruct (Q ps Ips) as (x & ty & Ex & _). apply nth_error_Some. congruence.
      + intros ps Ips. destruct (Q ps Ips) as (x & ty & -> & T). unfold callsite. cbn [snd]. destruct ty; congruence. }
  destruct (rmapM_all _ _ (fun i => match nth_error args i with Some a => Ok a | None => Panic end) (fun i a => nth_error args i = Some a) is) as (l & El & Fl).
  { intros i Ii. apply Is in Ii. destruct Ii as (L & _). destruct (nth_error args i) eqn:Ea; [eauto|]. apply nth_error_None in Ea. lia. }
  rewrite El. cbn [rbind]. exists l. split; [reflexivity|].
  assert (FN : forall i a, nth_error args i = Some a <-> i < 256 /\ nth_error (args_below g o) i = Some a).
  { intros i a. unfold args. rewrite <- (firstn_skipn 256 (args_below g o)) at 2. assert (L1 := firstn_le_length 256 (args_below g o)). split.
    - intros H. assert (i < length (firstn 256 (args_below g o))) by (apply nth_error_Some; congruence). split; [lia|]. now rewrite nth_error_app1.
    - intros (L & H). destruct (Nat.lt_ge_cases i (length (firstn 256 (args_below g o)))) as [L2|L2]; [now rewrite nth_error_app1 in H|].
      rewrite firstn_length in L2. rewrite skipn_all2, app_nil_r in H by lia. exact H. }
  intros a. split.
  - intros Ia. destruct (Forall2_in_r _ _ _ _ _ _ Fl Ia) as (i & Ii & Ea). apply Is in Ii. apply FN in Ea. exists i. tauto.
  - intros (i & L & Ea & Ev). assert (Eb : nth_error args i = Some a) by (apply FN; auto).
    assert (Ii : In i is). { apply Is. split; [apply nth_error_Some; congruence|auto]. }
    destruct (Forall2_in_l _ _ _ _ _ _ Fl Ii) as (y & Iy & Ey). congruence.
Qed.

Definition sound (tg : tg_t) : Prop := forall a b f, has tg a b f -> carries g a b f.
Definition inputs_in (tg : tg_t) : Prop := forall n t o, node g n = Some (NPound PInput t) -> In n (children g o) -> has tg o n TyGraph.II.

Lemma args_children : forall o a i, nth_error (args_below g o) i = Some a -> In a (children g o).
Proof. intros o a i H. apply nth_error_In in H. apply filter_In in H. tauto. Qed.

(** What may flow from an op to one of its arguments. *)
Lemma carries_arg : forall o t a f, node g o = Some (NOp t) -> In a (children g o) -> carries g o a f ->
  f = TyGraph.II \/ exists t', node g a = Some (NPound PInput t').
Proof.
  intros o t a f N C H. destruct (child_of_op m g M o t a N C) as (x & Nx & Tx).
  inversion H as [e t0 o0 N0 C0|e t0 l o0 N0 C0|e t0 i a0 b0 N0 C1 C2|n t0 o0 f0 N0 C0 F0|d x0 (e0 & ps0 & N0) C0|d x0 (e0 & ps0 & N0) C0|o0 d D0 K0|o0 d (e0 & ps0 & N0) K0|o0 k d (e0 & ps0 & N0) K0|o0 i a0 NE0 Ev0 L0 E0];
    subst; try (left; reflexivity).
  - exfalso. assert (I1 := child_range g o a (m_inv _ _ M) C).
    assert (I2 : In o (children g a)) by (rewrite C0; apply in_or_app; right; now left). assert (I3 := child_range g a o (m_inv _ _ M) I2). lia.
  - exfalso. assert (I2 : In a (children g e)) by (eapply nth_error_In; eauto). destruct (child_of_expr m g M e t0 a N0 I2) as (t' & N'). rewrite Nx in N'. injection N' as ->. exact Tx.
  - right. eauto.
  - exfalso. destruct (child_of_def m g M _ _ _ _ N0 C0) as (t' & N'). congruence.
  - exfalso. congruence.
  - exfalso. congruence.
Qed.

Lemma apply_def_ok : forall tg d e ps, node g d = Some (NDef e ps) -> sound tg -> inputs_in tg ->
  exists tg', apply_def g tg d = Ok tg' /\ more tg tg' /\ sound tg' /\
  (forall x, In x (children g d) -> has tg' d x TyGraph.II /\ has tg' x d TyGraph.OO) /\
  (forall o, In (None, d) (keyed g o) -> has tg' o d TyGraph.II /\ has tg' d o TyGraph.OO) /\
  (forall o k, keyed g o = [(k, d)] -> has tg' d o TyGraph.OO) /\
  (forall o k i a, In (k, d) (keyed g o) -> evaluated o i -> i < 256 -> nth_error (args_below g o) i = Some a -> has tg' o a TyGraph.II).
Proof.
  intros tg d e ps N SO IN. destruct (cmd_parent_ok m g M d _ N I) as (o & t & k & No & P & K & FE & U).
  destruct (def_expr_ok m g M d e ps N) as (x & t' & X & C & Nx). unfold apply_def. rewrite P. cbn [rbind]. rewrite X. cbn [rbind]. rewrite FE. cbn [rbind e_rel].
  assert (D : defines g d) by (exists e, ps; exact N).
  set (tg1 := add_flows tg [(d, x, TyGraph.II); (x, d, TyGraph.OO)]).
  set (any := match k with None => true | _ => false end). assert (An : any = true <-> k = None) by (unfold any; destruct k; split; congruence).
  set (tg2 := if any then add_flow tg1 (o, d, TyGraph.II) else tg1).
  set (tg3 := if any || (length (cmds g o) =? 1) then add_flow tg2 (d, o, TyGraph.OO) else tg2).
  assert (L1 : length (cmds g o) =? 1 = true <-> keyed g o = [(k, d)]).
  { rewrite cmds_eq, rev_length, map_length, Nat.eqb_eq. split; [|intros ->; reflexivity].
    intros H. destruct (keyed g o) as [|p [|]]; try discriminate. destruct K as [->|[]]. reflexivity. }
  assert (M1 : more tg tg1) by apply add_flows_more.
  assert (M2 : more tg1 tg2) by (unfold tg2; destruct any; [apply add_flow_more|apply more_refl]).
  assert (M3 : more tg2 tg3) by (unfold tg3; destruct (any || _); [apply add_flow_more|apply more_refl]).
  assert (M13 : more tg tg3) by (eapply more_trans; [|eapply more_trans]; eauto).
  assert (Xc : In x (children g d)) by (rewrite C; now left).
  assert (S1 : sound tg1).
  { intros a b f H. apply add_flows_has in H. destruct H as [H|[H|[H|[]]]]; [auto| |]; injection H as <- <- <-; [now apply c_body_in|now apply c_body_out]. }
  assert (S2 : sound tg2).
  { unfold tg2. destruct any eqn:Ea; [|auto]. rewrite (proj1 An eq_refl) in K. intros a b f H. apply add_flow_has in H. destruct H as [H|H]; [auto|].
    injection H as -> -> ->. now apply c_call_in. }
  assert (S3 : sound tg3).
  { unfold tg3. destruct (any || _) eqn:Ea; [|auto]. intros a b f H. apply add_flow_has in H. destruct H as [H|H]; [auto|]. injection H as -> -> ->.
    apply orb_prop in Ea. destruct Ea as [Ea|Ea]; [apply An in Ea; subst k; now apply c_call_out|apply L1 in Ea; eapply c_only; eauto]. }
  assert (H1 : forall y, In y (children g d) -> has tg1 d y TyGraph.II /\ has tg1 y d TyGraph.OO).
  { intros y Y. rewrite C in Y. destruct Y as [<-|[]]. split; apply add_flows_has; right; cbn; auto. }
  assert (H2 : any = true -> has tg2 o d TyGraph.II) by (intros A; unfold tg2; rewrite A; apply add_flow_has; now right).
  assert (H3 : any = true \/ keyed g o = [(k, d)] -> has tg3 d o TyGraph.OO).
  { intros A. unfold tg3. assert (any || (length (cmds g o) =? 1) = true) as ->; [|apply add_flow_has; now right]. apply orb_true_iff. destruct A as [A|A]; [auto|right; now apply L1]. }
  assert (G1 : forall tg', more tg3 tg' -> forall y, In y (children g d) -> has tg' d y TyGraph.II /\ has tg' y d TyGraph.OO).
  { intros tg' Mt y Y. destruct (H1 y Y). split; apply Mt, M3, M2; auto. }
  assert (G2 : forall tg', more tg3 tg' -> forall o0, In (None, d) (keyed g o0) -> has tg' o0 d TyGraph.II /\ has tg' d o0 TyGraph.OO).
  { intros tg' Mt o0 K0. destruct (U _ _ K0) as (-> & <-). assert (A : any = true) by now apply An. split; apply Mt; [apply M3|]; auto. }
  assert (G3 : forall tg', more tg3 tg' -> forall o0 k0, keyed g o0 = [(k0, d)] -> has tg' d o0 TyGraph.OO).
  { intros tg' Mt o0 k0 K0. assert (I0 : In (k0, d) (keyed g o0)) by (rewrite K0; now left). destruct (U _ _ I0) as (-> & ->). apply Mt. auto. }
  assert (NE : keyed g o <> []) by (destruct (keyed g o); [destruct K|discriminate]).
  destruct (forallb (at_is g is_def) (cmds g o)) eqn:FA.
  - destruct (link_list_ok o NE FA) as (l & El & Hl). unfold link_defs. rewrite El. cbn [rbind fst snd].
    destruct (link_spec' l tg3 o false) as (Ml & Sl & Cl). set (tg4 := fst (TyGraph.link_args tg3 o l false)) in *.
    exists tg4. split; [reflexivity|]. split; [eapply more_trans; eauto|]. split; [|split; [|split; [|split]]]; eauto.
    + intros a b f H. destruct (Sl a b f H) as [H'|(-> & Il & ->)]; [auto|]. apply Hl in Il. destruct Il as (i & L & Ea & Ev).
      apply c_arg with i; auto.
    + intros o0 k0 i a K0 Ev L Ea. destruct (U _ _ K0) as (-> & _). assert (Il : In a l) by (apply Hl; eauto).
      destruct (Cl a Il) as [H|(f & H)]; [auto|]. assert (Ca := S3 _ _ _ H). assert (Ia := args_children o a i Ea).
      destruct (carries_arg o t a f No Ia Ca) as [->|(t'' & Np)]; [now apply Ml|]. apply Ml, M13. eapply IN; eauto.
  - exists tg3. split; [reflexivity|]. split; [auto|]. split; [auto|]. split; [eauto using more_refl|]. split; [eauto using more_refl|]. split; [eauto using more_refl|].
    intros o0 k0 i a K0 Ev L Ea. exfalso. destruct (U _ _ K0) as (-> & _).
    assert (forallb (at_is g is_def) (cmds g o) = true); [|congruence]. apply forallb_forall. intros c Ic. rewrite cmds_eq in Ic. apply in_rev in Ic.
    apply in_map_iff in Ic. destruct Ic as ([kc c'] & <- & Ic). destruct (Ev _ _ Ic) as (e' & ps' & y & ty & N' & _). unfold at_is. cbn [snd]. now rewrite N'.
Qed.

Lemma apply_defs_ok : forall ds tg, (forall d, In d ds -> defines g d) -> sound tg -> inputs_in tg ->
  exists tg', apply_defs g tg ds = Ok tg' /\ more tg tg' /\ sound tg' /\ forall d, In d ds ->
  (forall x, In x (children g d) -> has tg' d x TyGraph.II /\ has tg' x d TyGraph.OO) /\
  (forall o, In (None, d) (keyed g o) -> has tg' o d TyGraph.II /\ has tg' d o TyGraph.OO) /\
  (forall o k, keyed g o = [(k, d)] -> has tg' d o TyGraph.OO) /\
  (forall o k i a, In (k, d) (keyed g o) -> evaluated o i -> i < 256 -> nth_error (args_below g o) i = Some a -> has tg' o a TyGraph.II).
Proof.
  induction ds as [|d ds IH]; intros tg D SO IN; cbn [apply_defs].
  - exists tg. split; [reflexivity|]. split; [apply more_refl|]. split; [auto|intros d []].
  - destruct (D d (or_introl eq_refl)) as (e & ps & N). destruct (apply_def_ok tg d e ps N SO IN) as (tg1 & E & M1 & S1 & A1 & A2 & A3 & A4).
    rewrite E. cbn [rbind]. destruct (IH tg1) as (tg2 & E2 & M2 & S2 & B).
    { intros d' Id. apply D. now right. } { exact S1. } { intros n t o N1 C1. apply M1. eapply IN; eauto. }
    exists tg2. split; [auto|]. split; [eapply more_trans; eauto|]. split; [auto|]. intros d' [<-|Id]; [|auto].
    split; [|split; [|split]].
    + intros x X. destruct (A1 x X). split; apply M2; auto.
    + intros o K. destruct (A2 o K). split; apply M2; auto.
    + intros o k K. apply M2. eauto.
    + intros o k i a K Ev L Ea. apply M2. eauto.
Qed.

Theorem apply_edges_ok : forall tg, TyGraph.edges tg = [] ->
  exists tg', apply_ast_edges g tg = Ok tg' /\ TyGraph.nodes tg' = TyGraph.nodes tg /\ TyGraph.anon_tys tg' = TyGraph.anon_tys tg /\
  forall a b f, has tg' a b f <-> carries g a b f.
Proof.
  intros tg E0. unfold apply_ast_edges. set (tg1 := add_flows tg _). destruct input_ok as (inp & Ei & Hi). rewrite Ei. cbn [rbind].
  set (tg2 := add_flows tg1 inp).
  assert (B : forall a b f, has tg2 a b f <-> In (a, b, f) (first_edges g) \/ In (a, b, f) (last_edges g) \/ In (a, b, f) (pipe_edges g) \/ In (a, b, f) inp).
  { intros a b f. unfold tg2, tg1. rewrite !add_flows_has, !in_app_iff. unfold has. rewrite E0. cbn [In]. tauto. }
  assert (S2 : sound tg2).
  { intros a b f H. apply B in H. destruct H as [H|[H|[H|H]]].
    - apply first_in in H. destruct H as (t & N & C & ->). eapply c_first; eauto.
    - apply last_in in H. destruct H as (t & l & N & C & ->). eapply c_last; eauto.
    - apply pipe_in in H. destruct H as (e & t & i & N & C1 & C2 & ->). eapply c_pipe; eauto.
    - apply Hi in H. destruct H as (t & N & C & F). eapply c_input; eauto. }
  assert (I2 : inputs_in tg2).
  { intros n t o N C. apply B. right. right. right. apply Hi. eauto. }
  destruct (apply_defs_ok (indices g is_def) tg2) as (tg3 & E3 & M3 & S3 & D3); auto.
  { intros d Id. apply in_indices in Id. destruct Id as (x & N & X). apply is_def_true in X. destruct X as (e & ps & ->). exists e, ps. exact N. }
  assert (M2 : more tg tg2) by (eapply more_trans; apply add_flows_more). assert (M23 := more_trans _ _ _ M2 M3).
  exists tg3. split; [exact E3|]. split; [apply M23|]. split; [apply M23|]. intros a b f. split; [apply S3|].
  assert (DI : forall d, defines g d -> In d (indices g is_def)) by (intros d (e & ps & N); apply in_indices; exists (NDef e ps); auto).
  intros H. inversion H as [e t0 o0 N0 C0|e t0 l o0 N0 C0|e t0 i a0 b0 N0 C1 C2|n t0 o0 f0 N0 C0 F0|d x0 D0 C0|d x0 D0 C0|o0 d D0 K0|o0 d D0 K0|o0 k d D0 K0|o0 i a0 NE0 Ev0 L0 Ea0]; subst.
  - apply M3, B. left. apply first_in. eauto.
  - apply M3, B. right. left. apply last_in. eauto.
  - apply M3, B. right. right. left. apply pipe_in. eauto 8.
  - apply M3, B. right. right. right. apply Hi. eauto.
  - destruct (D3 _ (DI _ D0)) as (A & _). apply A. auto.
  - destruct (D3 _ (DI _ D0)) as (A & _). apply A. auto.
  - destruct (D3 _ (DI _ D0)) as (_ & A & _). apply A. auto.
  - destruct (D3 _ (DI _ D0)) as (_ & A & _). apply A. auto.
  - destruct (D3 _ (DI _ D0)) as (_ & _ & A & _). eapply A. eauto.
  - destruct (keyed g a) as [|[k c] l] eqn:Ek; [destruct (NE0 eq_refl)|]. rewrite <- Ek in Ev0.
    assert (Kc : In (k, c) (keyed g a)) by (rewrite Ek; now left).
    destruct (Ev0 k c Kc) as (e & ps & x & ty & N & _). assert (D0 : defines g c) by (exists e, ps; exact N).
    destruct (D3 _ (DI _ D0)) as (_ & _ & _ & A). eapply A; eauto.
Qed.
End G.
