(** What it takes for the arguments, variables and flags of a block to be accepted. *)
From Coq Require Import String List NArith Bool Arith Lia Permutation.
From Verif Require Import Model.Base Model.Value Model.Ast Model.Registry Model.AstGraph Model.TyBuild Model.Compile Model.ArgApi Model.Ops Spec.AstGraphSpec Spec.TyBuildSpec Spec.LocalsSpec Spec.CompileSpec Spec.ArgSpec Spec.OpSpec
  Proofs.TyBuildBase Proofs.TyBuildNodes Proofs.CompileProofs Proofs.CompileInv Proofs.ArgProofs Proofs.CallProofs Proofs.OpsBase.
From Verif Require Model.TyGraph Model.Locals Proofs.LocalsGraphProofs Proofs.AstTypedProofs.
Import ListNotations.

Section A.
Variable g : graph.
Hypothesis G : LocalsGraphProofs.good g.
Notation comp := (comp code ArgApi.binding cparam).
Variables (c : comp) (k : nat) (t : tkey).
Notation Y := (Y code g c k t).
Notation used := (used code g c).

Lemma used_iff : forall n a, used n a <-> stands g c n (ar_node a) /\ holds g c (ar_node a) (ar_hold a) /\ hold_ty (ar_hold a) = ar_out a /\ typed c n TyGraph.Out_ (ar_out a) /\
  (typed c n TyGraph.In_ (ar_in a) \/ kn c n TyGraph.In_ = Some TyGraph.Any).
Proof.
  intros n a. split.
  - intros (l & H1 & H2 & H3 & H4 & H5 & _). repeat (split; [assumption|]). tauto.
  - intros (H1 & H2 & H3 & H4 & H5). destruct H5 as [H5|H5].
    + exists []. repeat (split; [assumption|]). split; [auto|]. split; intros u [].
    + exists [Takes (ar_in a)]. repeat (split; [assumption|]). split; [right; cbn; auto|]. split; intros u [E|[]]; [congruence|discriminate].
Qed.

(** ** Demands *)
Inductive dem := DS (u : option tkey) | DR (f : option tkey -> tkey) | DD.
Fixpoint asks (l : list dem) (b : builder) (p : argument -> prog) : prog :=
  match l with
  | [] => PConcrete b (ok p)
  | DS u :: l => PSupplied b u (ok (fun b => asks l b p))
  | DR f :: l => PReturns b (f (return_ty b)) (ok (fun b => asks l b p))
  | DD :: l => PDecouple b (asks l b p)
  end.
Definition dflt (u : option tkey) : tkey := match u with Some u => u | None => t end.
Definition met (a : argument) (d : dem) : Prop :=
  match d with DS u => ar_in a = dflt u | DR f => f (Some (ar_out a)) = ar_out a | DD => placed g a end.
Definition gets (l : list dem) (n : nat) (a : argument) : Prop :=
  used n a /\ Forall (met a) l /\ ((forall u, ~ In (DS u) l) -> typed c n TyGraph.In_ (ar_in a)).

Lemma normal_parent : forall m o, Locals.arg_op g m = Ok o -> In m (children g o).
Proof.
  intros m o H. unfold Locals.arg_op in H. destruct (filter _ _) as [|[a b r] l] eqn:F; [discriminate|]. injection H as <-.
  assert (I : In (Edge a b r) (filter (fun e => is_normal (e_rel e)) (edges_in g m))) by (rewrite F; now left).
  apply filter_In in I. destruct I as (I & N). cbn in N. apply (LocalsGraphProofs.in_edges_in) in I. destruct I as (I & D). cbn in D. subst b. destruct r; try discriminate.
  cbn. now apply AstTypedProofs.in_children.
Qed.
Lemma placed_decouple : forall b, (exists o, In (b_node b) (children g o)) <-> exists r, decouple g b = Good r.
Proof.
  intros b. unfold decouple. split.
  - intros (o & I). rewrite (@LocalsGraphProofs.arg_op_ok _ G _ _ I). eexists. reflexivity.
  - intros (r & H). destruct (Locals.arg_op g (b_node b)) as [o|?|] eqn:E; try discriminate. exists o. now apply normal_parent.
Qed.

Lemma supplied_none : forall b, b_blk b = Some t -> forall u, ArgApi.supplied b u = ArgApi.supplied b (Some (dflt u)).
Proof. intros b B [u|]; [reflexivity|]. unfold ArgApi.supplied. rewrite B. reflexivity. Qed.
Lemma asks_fwd : forall l b p fl ns y, b_blk b = Some t -> Y (asks l b p) fl ns y ->
  exists b' a, b_node b' = b_node b /\ b_out b' = b_out b /\ (forall u, In (DS u) l -> b_in b' = KnTy (dflt u)) /\
    (forall f, In (DR f) l -> b_out b = KnTy (f (return_ty b))) /\ (In DD l -> exists o, In (b_node b) (children g o)) /\
    (b_in b' = b_in b \/ b_in b = KnAny /\ exists u, In (DS u) l) /\
    concrete g c b' = Good (inl a) /\ Y (p a) fl ns y.
Proof.
  induction l as [|d l IH]; intros b p fl ns y B H; cbn [asks] in H.
  - apply Y_concrete in H. destruct H as ([a|e] & C & H); [|now apply Y_fail in H]. exists b, a. cbn in H. repeat (split; [reflexivity || (intros ? []) || (intros [])|]). auto.
  - destruct d as [u|f|].
    + apply Y_supplied in H. rewrite (supplied_none b B) in H. destruct (ArgApi.supplied b (Some (dflt u))) as [[b1|e] q] eqn:S; cbn in H; [|now apply Y_fail in H].
      apply supplied_ok in S. destruct S as (_ & S1 & S2 & S3 & S4 & S5). apply IH in H; [|congruence].
      destruct H as (b' & a & H1 & H2 & H3 & H4 & H5 & H6 & H7 & H8). exists b', a. split; [congruence|]. split; [congruence|].
      assert (R : return_ty b1 = return_ty b) by (unfold return_ty; now rewrite S2).
      assert (BI : b_in b' = KnTy (dflt u)) by (destruct H6 as [->|(H6 & _)]; [exact S4|congruence]).
      split; [intros u' [E|I]; [injection E as <-; exact BI|auto]|]. split; [intros f [E|I]; [discriminate|rewrite <- S2, <- R; auto]|].
      split; [intros [E|I]; [discriminate|rewrite <- S1; auto]|]. split; [|auto].
      destruct S5 as [S5|S5]; [right; split; [auto|exists u; now left]|left; congruence].
    + apply Y_returns in H. destruct H as ([[b1|e] q] & R & H); cbn in H; [|now apply Y_fail in H]. apply returns_ok in R. destruct R as (_ & -> & R).
      apply IH in H; [|auto]. destruct H as (b' & a & H1 & H2 & H3 & H4 & H5 & H6 & H7 & H8). exists b', a. split; [auto|]. split; [auto|].
      split; [intros u' [E|I]; [discriminate|auto]|]. split; [intros f' [E|I]; [injection E as <-; exact R|auto]|]. split; [intros [E|I]; [discriminate|auto]|].
      split; [|auto]. destruct H6 as [H6|(H6 & u & I)]; [auto|]. right. split; [auto|]. exists u. now right.
    + apply Y_decouple in H. destruct H as (D & H). apply IH in H; [|auto]. destruct H as (b' & a & H1 & H2 & H3 & H4 & H5 & H6 & H7 & H8). exists b', a. split; [auto|]. split; [auto|].
      split; [intros u' [E|I]; [discriminate|auto]|]. split; [intros f' [E|I]; [discriminate|auto]|]. split; [intros _; now apply placed_decouple|].
      split; [|auto]. destruct H6 as [H6|(H6 & u & I)]; [auto|]. right. split; [auto|]. exists u. now right.
Qed.
Lemma asks_bwd : forall l b a p fl ns y, b_blk b = Some t -> b_node b = ar_node a -> b_out b = KnTy (ar_out a) -> Forall (met a) l ->
  (b_in b = KnTy (ar_in a) \/ b_in b = KnAny /\ exists u, In (DS u) l) -> holds g c (ar_node a) (ar_hold a) -> hold_ty (ar_hold a) = ar_out a -> Y (p a) fl ns y ->
  Y (asks l b p) fl ns y.
Proof.
  induction l as [|d l IH]; intros b a p fl ns y B N O F I H E HY; cbn [asks].
  - apply Y_concrete. exists (inl a). split; [|exact HY]. destruct I as [I|(_ & u & [])]. unfold concrete.
    assert (V : exists v, var_exists g c b = Good (inl v)).
    { unfold var_exists. rewrite N. destruct H as [x Nx|z x Nx|q x u Nx J|x u Nx T|x u s Nx T|x ss s Nx St]; rewrite Nx; try (eexists; reflexivity).
      apply get_opt_get in T. rewrite T. cbn. eexists. reflexivity. }
    destruct V as (v & ->). cbn [obind]. rewrite I, O, N. apply hold_of_ok in H. rewrite H. cbn [obind]. rewrite E, tkey_refl. destruct a; reflexivity.
  - apply Forall_cons_iff in F. destruct F as (M & F). destruct d as [u|f|]; cbn in M.
    + apply Y_supplied. rewrite (supplied_none b B). destruct b as [bn bi bo bb]. cbn in *. subst bn bo. unfold ArgApi.supplied. cbn.
      assert (Z : b_in (match bi with KnAny => Builder (ar_node a) (KnTy (dflt u)) (KnTy (ar_out a)) bb | _ => Builder (ar_node a) bi (KnTy (ar_out a)) bb end) = KnTy (dflt u)).
      { destruct I as [->|(-> & _)]; cbn; congruence. }
      rewrite Z, tkey_refl. cbn. eapply IH; [| | |exact F| |exact H|exact E|exact HY]; try (destruct bi; auto; fail). left. congruence.
    + apply Y_returns. assert (R : return_ty b = Some (ar_out a)) by (unfold return_ty; now rewrite O). rewrite R. unfold returns. rewrite O, M, tkey_refl. eexists. split; [reflexivity|]. cbn.
      eapply IH; eauto. destruct I as [I|(I & u & [J|J])]; [auto|discriminate|eauto].
    + apply Y_decouple. split; [apply placed_decouple; rewrite N; exact M|]. eapply IH; eauto. destruct I as [I|(I & u & [J|J])]; [auto|discriminate|eauto].
Qed.
Lemma Y_asks : forall l p fl ns y, Y (PNext (ok (fun b => asks l b p))) fl ns y <-> exists n ns' a, ns = n :: ns' /\ gets l n a /\ Y (p a) fl ns' y.
Proof.
  intros l p fl ns y. rewrite Y_next. destruct ns as [|n ns].
  { cbn [ok]. rewrite Y_fail. split; [tauto|]. intros (n & ns' & a & E & _). discriminate. }
  split.
  - intros (b & N & H). cbn [ok] in H. apply new_arg_ok in N. destruct N as (i & o & m & KI & KO & S & ->). apply asks_fwd in H; [|reflexivity]. cbn [b_node b_in b_out] in H.
    destruct H as (b' & a & H1 & H2 & H3 & H4 & H5 & H6 & H7 & H8). exists n, ns, a. split; [reflexivity|]. split; [|exact H8].
    apply concrete_ok in H7. destruct H7 as (i' & o' & h & C1 & C2 & C3 & C4 & ->). rewrite H1 in *. rewrite H2 in C2.
    assert (TO : typed c n TyGraph.Out_ o') by (eapply known_ty; eauto).
    split; [|split].
    + apply used_iff. cbn. repeat (split; [assumption|]). destruct H6 as [H6|(H6 & _)]; [left; eapply known_ty; [exact KI|congruence]|right; apply known_any in H6; congruence].
    + apply Forall_forall. intros d J. destruct d as [u|f|]; cbn [met ar_in ar_out].
      * specialize (H3 _ J). congruence.
      * specialize (H4 _ J). unfold return_ty in H4. cbn [b_out] in H4. rewrite C2 in H4. congruence.
      * destruct (H5 J) as (o2 & I2). exists o2. exact I2.
    + intros NS. cbn. destruct H6 as [H6|(_ & u & J)]; [|now apply NS in J]. eapply known_ty; [exact KI|congruence].
  - intros (n' & ns' & a & E & (U & M & NS) & H). injection E as <- <-. apply used_iff in U. destruct U as (U1 & U2 & U3 & U4 & U5).
    assert (KI : exists i, kn c n TyGraph.In_ = Some i /\ (known_of i = KnTy (ar_in a) \/ known_of i = KnAny)).
    { destruct (kn c n TyGraph.In_) as [i|] eqn:K; [|destruct U5 as [[[Z|Z]|Z]|Z]; unfold kn in *; congruence]. exists i. split; [auto|].
      destruct U5 as [Z|Z]; [left; eapply known_ty; eauto|right; apply known_any; congruence]. }
    assert (KO : exists o, kn c n TyGraph.Out_ = Some o /\ known_of o = KnTy (ar_out a)).
    { destruct (kn c n TyGraph.Out_) as [o|] eqn:K; [|destruct U4 as [[Z|Z]|Z]; unfold kn in *; congruence]. exists o. split; [auto|]. eapply known_ty; eauto. }
    destruct KI as (i & KI & EI). destruct KO as (o & KO & EO). apply follow_iff in U1. eexists. split; [unfold new_arg; rewrite KI, KO; cbn [expect obind]; rewrite U1; reflexivity|].
    cbn [ok]. eapply asks_bwd; [reflexivity|reflexivity|exact EO|exact M| |exact U2|exact U3|exact H]. cbn [b_in].
    destruct EI as [EI|EI]; [auto|]. destruct (existsb (fun d => match d with DS _ => true | _ => false end) l) eqn:X.
    + right. split; [exact EI|]. apply existsb_exists in X. destruct X as ([u|f|] & J & Z); try discriminate. eauto.
    + assert (T : typed c n TyGraph.In_ (ar_in a)).
      { apply NS. intros u J. assert (Q : existsb (fun d => match d with DS _ => true | _ => false end) l = true) by (apply existsb_exists; exists (DS u); auto). congruence. }
      rewrite <- (known_ty _ _ _ _ _ _ KI) in T. auto.
Qed.
Lemma Y_arg : forall i o p fl ns y, Y (arg i o p) fl ns y <-> exists n ns' a, ns = n :: ns' /\ used n a /\ ar_in a = dflt i /\ ar_out a = o /\ Y (p a) fl ns' y.
Proof.
  intros i o p fl ns y. change (arg i o p) with (PNext (ok (fun b => asks [DS i; DR (fun _ => o)] b p))). rewrite Y_asks. split; intros (n & ns' & a & E & H); exists n, ns', a.
  - destruct H as ((U & M & _) & H). apply Forall_cons_iff in M. destruct M as (M1 & M). apply Forall_cons_iff in M. destruct M as (M2 & _). cbn in *. auto.
  - destruct H as (U & M1 & M2 & H). split; [auto|]. split; [|auto]. split; [auto|]. split; [repeat constructor; cbn; auto|]. intros Z. destruct (Z i). now left.
Qed.
Lemma Y_any_arg : forall i p fl ns y, Y (any_arg i p) fl ns y <-> exists n ns' a, ns = n :: ns' /\ used n a /\ ar_in a = dflt i /\ Y (p a) fl ns' y.
Proof.
  intros i p fl ns y. change (any_arg i p) with (PNext (ok (fun b => asks [DS i] b p))). rewrite Y_asks. split; intros (n & ns' & a & E & H); exists n, ns', a.
  - destruct H as ((U & M & _) & H). apply Forall_cons_iff in M. destruct M as (M1 & M). cbn in *. auto.
  - destruct H as (U & M1 & H). split; [auto|]. split; [|auto]. split; [auto|]. split; [repeat constructor; cbn; auto|]. intros Z. destruct (Z i). now left.
Qed.
Lemma Y_flagged : forall u o p fl ns y, Y (flagged_arg u o p) fl ns y <-> exists n ns' a, ns = n :: ns' /\ used n a /\
  match u with Some u => ar_in a = key_of u | None => typed c n TyGraph.In_ (ar_in a) end /\ match o with Some o => ar_out a = o | None => True end /\ Y (p a) fl ns' y.
Proof.
  intros u o p fl ns y.
  assert (E : flagged_arg u o p = PNext (ok (fun b => asks (match u with Some u => [DS (Some (key_of u))] | None => [] end ++ match o with Some o => [DR (fun _ => o)] | None => [] end) b p))) by (destruct u, o; reflexivity).
  rewrite E, Y_asks. split; intros (n & ns' & a & En & H); exists n, ns', a.
  - destruct H as ((U & M & NS) & H). split; [auto|]. split; [auto|]. split; [|split; [|auto]].
    + destruct u as [u|]; [apply Forall_app in M; destruct M as (M & _); now apply Forall_cons_iff in M|]. apply NS. intros v J. destruct o; [destruct J as [J|[]]; discriminate|destruct J].
    + destruct o as [o|]; [|auto]. apply Forall_app in M. destruct M as (_ & M). apply Forall_cons_iff in M. destruct M as (M & _). cbn in M. auto.
  - destruct H as (U & M1 & M2 & H). split; [auto|]. split; [|auto]. split; [auto|]. split; [apply Forall_app; split|].
    + destruct u; repeat constructor; auto.
    + destruct o; repeat constructor; cbn; auto.
    + intros NS. destruct u as [u|]; [|auto]. destruct (NS (Some (key_of u))). now left.
Qed.

(** Several *)
Lemma Y_args : forall n i o acc p fl ns y, Y (args n i o acc p) fl ns y <-> exists ns1 ns2 l, ns = ns1 ++ ns2 /\ length ns1 = n /\ Forall2 used ns1 l /\
  Forall (fun a => ar_in a = dflt i /\ ar_out a = o) l /\ Y (p (acc ++ l)) fl ns2 y.
Proof.
  induction n as [|n IH]; intros i o acc p fl ns y; cbn [args].
  - split.
    + intros H. exists [], ns, []. rewrite app_nil_r. repeat split; auto.
    + intros (ns1 & ns2 & l & -> & L & F & A & H). destruct ns1; [|discriminate]. inversion F; subst. rewrite app_nil_r in H. exact H.
  - rewrite Y_arg. split.
    + intros (m & ns' & a & -> & U & I & O & H). apply IH in H. destruct H as (ns1 & ns2 & l & -> & L & F & A & H).
      exists (m :: ns1), ns2, (a :: l). rewrite <- app_assoc in H. repeat split; auto. cbn. now rewrite L.
    + intros (ns1 & ns2 & l & -> & L & F & A & H). destruct ns1 as [|m ns1]; [discriminate|]. inversion F as [|? a ? l' U F']; subst. apply Forall_cons_iff in A. destruct A as ((I & O) & A).
      exists m, (ns1 ++ ns2), a. repeat split; auto. apply IH. exists ns1, ns2, l'. rewrite <- app_assoc. repeat split; auto.
Qed.
Lemma Y_any_args : forall n i acc p fl ns y, Y (any_args n i acc p) fl ns y <-> exists ns1 ns2 l, ns = ns1 ++ ns2 /\ length ns1 = n /\ Forall2 used ns1 l /\
  Forall (fun a => ar_in a = dflt i) l /\ Y (p (acc ++ l)) fl ns2 y.
Proof.
  induction n as [|n IH]; intros i acc p fl ns y; cbn [any_args].
  - split.
    + intros H. exists [], ns, []. rewrite app_nil_r. repeat split; auto.
    + intros (ns1 & ns2 & l & -> & L & F & A & H). destruct ns1; [|discriminate]. inversion F; subst. rewrite app_nil_r in H. exact H.
  - rewrite Y_any_arg. split.
    + intros (m & ns' & a & -> & U & I & H). apply IH in H. destruct H as (ns1 & ns2 & l & -> & L & F & A & H).
      exists (m :: ns1), ns2, (a :: l). rewrite <- app_assoc in H. repeat split; auto. cbn. now rewrite L.
    + intros (ns1 & ns2 & l & -> & L & F & A & H). destruct ns1 as [|m ns1]; [discriminate|]. inversion F as [|? a ? l' U F']; subst. apply Forall_cons_iff in A. destruct A as (I & A).
      exists m, (ns1 ++ ns2), a. repeat split; auto. apply IH. exists ns1, ns2, l'. rewrite <- app_assoc. repeat split; auto.
Qed.
Lemma Y_inits : forall fs acc p fl ns y, Y (inits fs acc p) fl ns y <-> exists ns1 ns2 l, ns = ns1 ++ ns2 /\ Forall2 used ns1 l /\
  Forall2 (fun f a => ar_in a = t /\ ar_out a = key_of (snd f)) fs l /\ Y (p (acc ++ l)) fl ns2 y.
Proof.
  induction fs as [|f fs IH]; intros acc p fl ns y; cbn [inits].
  - split.
    + intros H. exists [], ns, []. rewrite app_nil_r. repeat split; auto.
    + intros (ns1 & ns2 & l & -> & F & A & H). inversion A; subst. inversion F; subst. rewrite app_nil_r in H. exact H.
  - rewrite Y_arg. split.
    + intros (m & ns' & a & -> & U & I & O & H). apply IH in H. destruct H as (ns1 & ns2 & l & -> & F & A & H).
      exists (m :: ns1), ns2, (a :: l). rewrite <- app_assoc in H. repeat split; auto.
    + intros (ns1 & ns2 & l & -> & F & A & H). inversion A as [|? a ? l' (I & O) A']; subst. inversion F as [|m ? ns1' ? U F']; subst.
      exists m, (ns1' ++ ns2), a. repeat split; auto. apply IH. exists ns1', ns2, l'. rewrite <- app_assoc. repeat split; auto.
Qed.
(** Conditions and branches *)
Fixpoint armed (u : tkey -> Prop) (l : list argument) : Prop :=
  match l with
  | [] => True
  | [_] => False
  | p :: e :: l => ar_in p = t /\ ar_out p = KBool /\ ar_in e = t /\ u (ar_out e) /\ armed u l
  end.
Lemma Y_arms : forall n acc p fl ns y, Y (arms n acc p) fl ns y <-> exists ns1 ns2 l, ns = ns1 ++ ns2 /\ length ns1 = n + n /\ Forall2 used ns1 l /\
  armed (fun _ => True) l /\ Y (p (acc ++ l)) fl ns2 y.
Proof.
  induction n as [|n IH]; intros acc p fl ns y; cbn [arms].
  - split.
    + intros H. exists [], ns, []. rewrite app_nil_r. repeat split; auto.
    + intros (ns1 & ns2 & l & -> & L & F & A & H). destruct ns1; [|discriminate]. inversion F; subst. rewrite app_nil_r in H. exact H.
  - rewrite Y_arg. split.
    + intros (m & ns' & a & -> & U & I & O & H). apply Y_any_arg in H. destruct H as (m2 & ns'' & b & -> & U2 & I2 & H). apply IH in H. destruct H as (ns1 & ns2 & l & -> & L & F & A & H).
      exists (m :: m2 :: ns1), ns2, (a :: b :: l). rewrite <- app_assoc in H. cbn in *. repeat split; auto. lia.
    + intros (ns1 & ns2 & l & -> & L & F & A & H). destruct ns1 as [|m [|m2 ns1]]; cbn in L; try lia. inversion F as [|? a ? l' U F']; subst. inversion F' as [|? b ? l2 U2 F2]; subst. cbn in A. destruct A as (A1 & A2 & A3 & _ & A).
      exists m, (m2 :: ns1 ++ ns2), a. repeat split; auto. apply Y_any_arg. exists m2, (ns1 ++ ns2), b. repeat split; auto. apply IH. exists ns1, ns2, l2. rewrite <- app_assoc. cbn in *. repeat split; auto. lia.
Qed.
Fixpoint renamed (l : list argument) : Prop :=
  match l with
  | [] => True
  | [_] => False
  | p :: e :: l => ar_in p = KNil /\ (ar_out p = KNum \/ ar_out p = KStr) /\ ar_in e = KNil /\ ar_out e = KStr /\ renamed l
  end.
Lemma Y_renames : forall n acc p fl ns y, Y (renames n acc p) fl ns y <-> exists ns1 ns2 l, ns = ns1 ++ ns2 /\ length ns1 = n + n /\ Forall2 used ns1 l /\
  renamed l /\ Y (p (acc ++ l)) fl ns2 y.
Proof.
  induction n as [|n IH]; intros acc p fl ns y; cbn [renames].
  - split.
    + intros H. exists [], ns, []. rewrite app_nil_r. repeat split; auto.
    + intros (ns1 & ns2 & l & -> & L & F & A & H). destruct ns1; [|discriminate]. inversion F; subst. rewrite app_nil_r in H. exact H.
  - set (f := fun r : option tkey => match r with Some KNum => KNum | _ => KStr end).
    match goal with |- Y ?q _ _ _ <-> _ => change q with (PNext (ok (fun b => asks [DS (Some KNil); DR f] b (fun h => arg (Some KNil) KStr (fun a => renames n (acc ++ [h; a]) p))))) end.
    rewrite Y_asks. split.
    + intros (m & ns' & a & -> & (U & M & _) & H). apply Forall_cons_iff in M. destruct M as (M1 & M). apply Forall_cons_iff in M. destruct M as (M2 & _). cbn in M1, M2.
      assert (O : ar_out a = KNum \/ ar_out a = KStr) by (destruct (ar_out a); auto; discriminate M2).
      apply Y_arg in H. destruct H as (m2 & ns'' & b & -> & U2 & I2 & O2 & H). apply IH in H. destruct H as (ns1 & ns2 & l & -> & L & F & A & H).
      exists (m :: m2 :: ns1), ns2, (a :: b :: l). rewrite <- app_assoc in H. cbn in *. repeat split; auto. lia.
    + intros (ns1 & ns2 & l & -> & L & F & A & H). destruct ns1 as [|m [|m2 ns1]]; cbn in L; try lia. inversion F as [|? a ? l' U F']; subst. inversion F' as [|? b ? l2 U2 F2]; subst. cbn in A. destruct A as (A1 & A2 & A3 & A4 & A).
      exists m, (m2 :: ns1 ++ ns2), a. split; [reflexivity|]. split.
      * split; [auto|]. split; [repeat constructor; cbn; auto; destruct A2 as [-> | ->]; reflexivity|]. intros Z. destruct (Z (Some KNil)). now left.
      * apply Y_arg. exists m2, (ns1 ++ ns2), b. repeat split; auto. apply IH. exists ns1, ns2, l2. rewrite <- app_assoc. cbn in *. repeat split; auto. lia.
Qed.
Lemma Y_appends : forall n acc cols p fl ns y, Y (appends n acc cols p) fl ns y <-> exists ns1 ns2 l, ns = ns1 ++ ns2 /\ length ns1 = n /\ Forall2 used ns1 l /\
  Forall (fun a => ar_in a = KTabRow) l /\ Y (p (acc ++ l) (cols ++ map Some (map tg_str (firstn n fl)) ++ repeat None (n - length fl))) (skipn n fl) ns2 y.
Proof.
  induction n as [|n IH]; intros acc cols p fl ns y; cbn [appends].
  - split.
    + intros H. exists [], ns, []. cbn. rewrite !app_nil_r. repeat split; auto.
    + intros (ns1 & ns2 & l & -> & L & F & A & H). destruct ns1; [|discriminate]. inversion F; subst. cbn in H. rewrite !app_nil_r in H. exact H.
  - rewrite Y_any_arg. split.
    + intros (m & ns' & a & -> & U & I & H). apply Y_flag in H. cbn [take_flag] in H. destruct fl as [|f fl]; apply IH in H; destruct H as (ns1 & ns2 & l & -> & L & F & A & H);
        exists (m :: ns1), ns2, (a :: l); rewrite <- !app_assoc in H; cbn in *; (repeat split; [lia|auto|auto|]).
      * replace (firstn n (@nil tag)) with (@nil tag) in H by (destruct n; reflexivity). replace (skipn n (@nil tag)) with (@nil tag) in H by (destruct n; reflexivity). cbn in H. rewrite Nat.sub_0_r in H. exact H.
      * exact H.
    + intros (ns1 & ns2 & l & -> & L & F & A & H). destruct ns1 as [|m ns1]; [discriminate|]. inversion F as [|? a ? l' U F']; subst. apply Forall_cons_iff in A. destruct A as (I & A). cbn in L. injection L as L.
      exists m, (ns1 ++ ns2), a. repeat split; auto. apply Y_flag. cbn [take_flag]. destruct fl as [|f fl]; apply IH; exists ns1, ns2, l'; rewrite <- !app_assoc; (repeat split; [auto|auto|auto|]); cbn in *.
      * replace (firstn n (@nil tag)) with (@nil tag) by (destruct n; reflexivity). replace (skipn n (@nil tag)) with (@nil tag) by (destruct n; reflexivity). cbn. rewrite Nat.sub_0_r. exact H.
      * exact H.
Qed.
End A.
