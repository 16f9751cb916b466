(** The type graph from which a compilation starts. *)
From Coq Require Import String List ZArith NArith Bool Arith Lia.
From Verif Require Import Model.Base Model.Value Model.Ast Model.Registry Model.AstGraph Model.TyBuild Spec.AstGraphSpec Spec.RegistrySpec Spec.TyBuildSpec.
From Verif Require Import Proofs.RegistryProofs Proofs.AstFlatProofs Proofs.AstExpandProofs Proofs.AstTypedProofs Proofs.TyBuildBase Proofs.TyBuildEdges Proofs.TyBuildNodes.
From Verif Require Model.TyGraph Spec.TyGraphSpec Proofs.TyGraphProofs Proofs.ResolveProofs Proofs.TyBuildFlow.
Import ListNotations.

Theorem built : forall s e g cs root, init s e = Ok (g, cs) -> has_literal_types (df_types s) ->
  exists tg, init_tg g (full (df_types s)) root = Ok tg /\
  length (TyGraph.nodes tg) = length (g_nodes g) /\ TyGraph.anon_tys tg = [] /\
  (forall a b f, In (TyGraph.Build_edge a b f) (TyGraph.edges tg) <-> carries g a b f) /\
  forall n x, node g n = Some x -> exists i o, TyGraph.kn_at tg (n, TyGraph.In_) = Some i /\ TyGraph.kn_at tg (n, TyGraph.Out_) = Some o /\
    start_input g (full (df_types s)) root n x i /\ start_output (full (df_types s)) x o.
Proof. intros s e g cs root H L. exact (init_tg_ok _ g (init_made _ _ _ _ H) _ root (literal_types_all _ L)). Qed.

Definition value (x : anode) : Prop := match x with NIdent _ | NNum _ _ | NPound _ _ | NVar _ => True | _ => False end.
Definition val_at (g : graph) (n : nat) : Prop := at_node g n value.

Section G.
Variables (m : impls) (g : graph).
Hypothesis M : made m g.
Lemma carries_from : forall a b f, carries g a b f -> ~ val_at g a.
Proof.
  intros a b f H (x & N & V).
  inversion H as [e t0 o0 N0 C0|e t0 l o0 N0 C0|e t0 i a0 b0 N0 C1 C2|n t0 o0 f0 N0 C0 F0|d x0 (e0 & ps0 & N0) C0|d x0 (e0 & ps0 & N0) C0|o0 d D0 K0|o0 d (e0 & ps0 & N0) K0|o0 k d (e0 & ps0 & N0) K0|o0 i a0 NE0 Ev0 L0 E0]; subst.
  - rewrite N in N0. injection N0 as ->. exact V.
  - assert (I : In a (children g b)) by (rewrite C0; apply in_or_app; right; now left). destruct (child_of_expr m g M b t0 a N0 I) as (t & Na). rewrite N in Na. injection Na as ->. exact V.
  - assert (I : In a (children g e)) by (eapply nth_error_In; eauto). destruct (child_of_expr m g M e t0 a N0 I) as (t & Na). rewrite N in Na. injection Na as ->. exact V.
  - destruct (term_parent m g M b _ N0 I) as (o & t & No & _ & _ & U); [|intros; discriminate|].
    + intros ->. destruct (m_root _ _ M) as (r & R). congruence.
    + assert (a = o) as -> by (apply U; exact C0). rewrite N in No. injection No as ->. exact V.
  - rewrite N in N0. injection N0 as ->. exact V.
  - destruct (child_of_def m g M _ _ _ _ N0 C0) as (t & Na). rewrite N in Na. injection Na as ->. exact V.
  - destruct (keyed_cmd m g M _ _ _ K0) as ((t & No) & _). rewrite N in No. injection No as ->. exact V.
  - rewrite N in N0. injection N0 as ->. exact V.
  - rewrite N in N0. injection N0 as ->. exact V.
  - destruct (keyed g a) as [|[k c] l] eqn:Ek; [destruct (NE0 eq_refl)|]. assert (K : In (k, c) (keyed g a)) by (rewrite Ek; now left).
    destruct (keyed_cmd m g M _ _ _ K) as ((t & No) & _). rewrite N in No. injection No as ->. exact V.
Qed.

Lemma any_start : forall all root tg, init_tg g all root = Ok tg -> good_all all -> TyBuildFlow.any_in tkey (val_at g) tg.
Proof.
  intros all root tg E G [n s] H. cbn [fst]. destruct (init_tg_ok m g M all root G) as (tg' & E' & L & _ & _ & A). rewrite E in E'. injection E' as <-.
  assert (B : n < length (TyGraph.nodes tg)) by (apply (TyGraphProofs.kn_at_bound tkey tg (n, s)); congruence).
  rewrite L in B. destruct (node g n) as [x|] eqn:N; [|apply nth_error_None in N; lia]. destruct (A n x N) as (i & o & Hi & Ho & Si & So).
  exists x. split; [exact N|]. destruct s.
  - rewrite H in Hi. injection Hi as <-. destruct x as [| | | | | |[]| |]; cbn in *; try exact Coq.Init.Logic.I; try discriminate.
    + destruct Si as [(_ & Q)|(_ & l & Q & _)]; discriminate.
    + destruct Si as (o' & [t'|] & _ & Q); discriminate.
    + destruct Si as (o' & [t'|] & _ & Q); discriminate.
    + destruct (n =? 0); discriminate.
  - rewrite H in Ho. injection Ho as <-. unfold start_output in So. destruct (literal x); discriminate.
Qed.

Theorem flows : forall all root tg xs st, good_all all -> init_tg g all root = Ok tg -> Forall (compiler_step g) xs ->
  TyGraph.compile_history tkey_eqb (tg, []) (xs ++ [TyGraph.CResolve tkey]) = (st, Ok tt) ->
  forall a b f t, carries g a b f -> let e := TyGraph.Build_edge a b f in
  (TyGraphSpec.settled (fst st) (fst (TyGraphSpec.feeds e)) t -> TyGraphSpec.settled (fst st) (snd (TyGraphSpec.feeds e)) t) /\
  (f = TyGraph.II -> TyGraphSpec.settled (fst st) (snd (TyGraphSpec.feeds e)) t -> TyGraphSpec.settled (fst st) (fst (TyGraphSpec.feeds e)) t).
Proof.
  intros all root tg xs st G E F H a b f t C e.
  destruct (init_tg_ok m g M all root G) as (tg' & E' & _ & _ & Hh & _). rewrite E in E'. injection E' as <-.
  apply (TyBuildFlow.carried tkey tkey_eqb tkey_eqb_eq (val_at g) xs tg st); auto.
  - eapply any_start; eauto.
  - intros [a0 b0 f0] I _ V. exfalso. apply Hh in I. exact (carries_from _ _ _ I V).
  - apply Forall_forall. intros x Ix. rewrite Forall_forall in F. specialize (F x Ix). destruct x as [cs|o args|]; cbn in *; auto.
    + apply Forall_forall. intros c Ic. rewrite Forall_forall in F. specialize (F c Ic).
      assert (W : forall n, at_node g n variable -> val_at g n) by (intros n (x & N & V); exists x; split; [auto|]; destruct x; try contradiction; exact I).
      destruct c; cbn in *; auto. destruct f0; auto.
    + intros (x & N & V). destruct F as (x' & N' & P). rewrite N in N'. injection N' as <-. destruct x; contradiction.
  - apply Hh. exact C.
  - exact (carries_from _ _ _ C).
Qed.
End G.

(** From the start of the compile loop. *)
Theorem start_flows : forall s e root anon g tg xs st, start s e root anon = Ok (g, tg) -> has_literal_types (df_types s) -> Forall (compiler_step g) xs ->
  TyGraph.compile_history tkey_eqb (tg, []) (xs ++ [TyGraph.CResolve tkey]) = (st, Ok tt) ->
  forall a b f t, carries g a b f -> let e := TyGraph.Build_edge a b f in
  (TyGraphSpec.settled (fst st) (fst (TyGraphSpec.feeds e)) t -> TyGraphSpec.settled (fst st) (snd (TyGraphSpec.feeds e)) t) /\
  (f = TyGraph.II -> TyGraphSpec.settled (fst st) (snd (TyGraphSpec.feeds e)) t -> TyGraphSpec.settled (fst st) (fst (TyGraphSpec.feeds e)) t).
Proof.
  intros s e root anon g tg xs st H L F C a b f t Ca. unfold start in H.
  destruct (init s e) as [[g0 cs]| |] eqn:E0; cbn [rbind fst snd] in H; try discriminate.
  destruct (init_tg g0 (full (df_types s)) root) as [tg0| |] eqn:E1; cbn [rbind] in H; try discriminate.
  set (cc := map to_chg cs ++ map (@TyGraph.AnonTy tkey) anon) in *.
  destruct (TyGraph.apply_chgs tkey_eqb tg0 cc false) as [tg1 [b1|?|]] eqn:E2; try discriminate. injection H as -> ->.
  apply (flows _ g (init_made _ _ _ _ E0) (full (df_types s)) root tg0 (TyGraph.CChanges cc :: xs) st); auto.
  - now apply literal_types_all.
  - constructor; [|auto]. cbn. apply Forall_app. split; apply Forall_forall; intros c Ic; apply in_map_iff in Ic; destruct Ic as (y & <- & _); [destruct y; exact I|exact I].
  - cbn [app TyGraph.compile_history TyGraph.exec_c fst]. rewrite E2. cbn [rbind]. exact C.
Qed.
