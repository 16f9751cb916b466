(** The compile loop only ever adds; what it adds fits. *)
From Coq Require Import String List ZArith NArith Bool Arith Lia.
From Verif Require Import Model.Base Model.Value Model.Ast Model.Registry Model.AstGraph Model.TyBuild Model.Compile Spec.AstGraphSpec Spec.TyBuildSpec Spec.CompileSpec
  Proofs.RegistryProofs Proofs.AstGraphProofs Proofs.TyBuildBase Proofs.TyBuildNodes Proofs.TyBuildProofs.
From Verif Require Model.TyGraph Model.Locals Model.Infer Spec.TyGraphSpec Proofs.TyGraphProofs Proofs.ResolveProofs.
Import ListNotations.

Lemma neqb_sym : forall a b, Nat.eqb a b = Nat.eqb b a.
Proof. intros. apply Nat.eqb_sym. Qed.
Lemma neqb_trans : forall a b c, Nat.eqb a b = true -> Nat.eqb b c = true -> Nat.eqb a c = true.
Proof. intros a b c H1 H2. apply Nat.eqb_eq in H1, H2. subst. apply Nat.eqb_refl. Qed.
Lemma nins : forall V (m : list (nat * V)) k v k', alookup Nat.eqb k' (ainsert Nat.eqb k v m) = if Nat.eqb k k' then Some v else alookup Nat.eqb k' m.
Proof. intros V. exact (alookup_ainsert _ V Nat.eqb neqb_sym neqb_trans). Qed.

(** ** The type graph *)
Notation kat := TyGraph.kn_at.
Lemma at_slot_false : forall g p f g', (forall k k', f k = Ok (false, k') -> k' = k) -> TyGraph.at_slot g p f = (g', Ok false) ->
  (forall q, kat g' q = kat g q) /\ @TyGraph.edges tkey g' = TyGraph.edges g.
Proof.
  intros g p f g' H E. unfold TyGraph.at_slot in E. destruct (kat g p) as [k|] eqn:K; [|injection E as <-; auto].
  destruct (f k) as [[c k']| |] eqn:F; try discriminate. injection E as <- ->. apply H in F. subst k'. split; [|reflexivity].
  intros q. destruct (TyGraphProofs.slot_eq_dec p q) as [->|NE].
  - rewrite TyGraphProofs.kn_at_put_same; congruence.
  - now rewrite TyGraphProofs.kn_at_put_other.
Qed.
Lemma set_kn_false : forall x k k', TyGraph.set_kn tkey_eqb k x = Ok (false, k') -> k' = k.
Proof. intros x k k' H. unfold TyGraph.set_kn in H. destruct (TyGraph.kn_eqb tkey_eqb k x); [now injection H as <-|]. destruct (TyGraph.can_flow tkey_eqb x k); discriminate. Qed.
Lemma filter_all : forall A (f : A -> bool) l, (forall x, In x l -> f x = true) -> filter f l = l.
Proof. intros A f l H. induction l as [|x l IH]; [reflexivity|]. cbn. rewrite (H x (or_introl eq_refl)), IH; [reflexivity|]. intros y I. apply H. now right. Qed.
Lemma rm_false : forall t k k', Ok (TyGraph.rm_inferred tkey_eqb t k) = Ok (false, k') -> k' = k.
Proof.
  intros t k k' H. injection H as H. destruct k as [|a|a|ts]; cbn in H; try (injection H as <-; reflexivity).
  injection H as M <-. f_equal. apply filter_all. intros x I. destruct (tkey_eqb t x) eqn:E; [|reflexivity]. exfalso.
  apply Bool.not_true_iff_false in M. apply M. apply existsb_exists. eauto.
Qed.
Lemma insert_false : forall t (k : TyGraph.kn tkey), fst (TyGraph.insert_kn tkey_eqb t k) = false -> snd (TyGraph.insert_kn tkey_eqb t k) = k.
Proof. intros t [|a|a|ts]; cbn; auto. unfold TyGraph.ts_insert. destruct (TyGraph.mem tkey_eqb t ts); cbn; [auto|discriminate]. Qed.
Lemma apply_false : forall g c g', TyGraph.apply_chg tkey_eqb g c = (g', Ok false) -> (forall q, kat g' q = kat g q) /\ TyGraph.edges g' = TyGraph.edges g.
Proof.
  intros g c g' H. destruct c as [n t|n t|n t|n|n t|n t|n t|a b f|t]; cbn [TyGraph.apply_chg] in H.
  1, 2, 5, 6: apply at_slot_false with (2 := H); cbn beta; intros k k' Z; exact (set_kn_false _ _ _ Z).
  1, 3: apply at_slot_false with (2 := H); cbn beta; intros k k' Z; exact (rm_false _ _ _ Z).
  - destruct (kat g (n, TyGraph.In_)) as [k|]; [|discriminate]. destruct (TyGraph.kn_ty k); [injection H as <-; auto|].
    apply at_slot_false with (2 := H); cbn beta; intros k0 k' Z; exact (set_kn_false _ _ _ Z).
  - destruct (TyGraph.has_edge g a b f); [injection H as <-; auto|]. destruct (_ && _); discriminate.
  - injection H as <- E. split; [|reflexivity]. intros [n s]. unfold kat. cbn [TyGraph.nodes fst snd TyGraph.map_kn]. rewrite nth_error_map.
    destruct (nth_error (TyGraph.nodes g) n) as [x|] eqn:N; [|reflexivity]. cbn. f_equal. 
    assert (F : forall y, In y (TyGraph.nodes g) -> fst (TyGraph.insert_kn tkey_eqb t (TyGraph.input y)) || fst (TyGraph.insert_kn tkey_eqb t (TyGraph.output y)) = false).
    { intros y I. destruct (_ || _) eqn:Z; [|reflexivity]. exfalso. apply Bool.not_true_iff_false in E. apply E. apply existsb_exists. eauto. }
    specialize (F x (nth_error_In _ _ N)). apply orb_false_iff in F. destruct F as (F1 & F2).
    destruct s; cbn; [now apply insert_false in F1|now apply insert_false in F2].
Qed.
Lemma link_false : forall args (g : tg_t) op, snd (TyGraph.link_args g op args false) = false -> fst (TyGraph.link_args g op args false) = g.
Proof.
  assert (T : forall args (g : tg_t) op, snd (TyGraph.link_args g op args true) = true).
  { induction args as [|a args IH]; intros g op; cbn; [reflexivity|]. destruct (TyGraph.joined g op a); apply IH. }
  induction args as [|a args IH]; intros g op H; cbn in *; [reflexivity|]. destruct (TyGraph.joined g op a); [now apply IH|]. now rewrite T in H.
Qed.

(** ** Moves of the graphs alone *)
Section Moves.
Variables (P A Q : Type) (g : graph) (order : Locals.lmap -> Locals.lmap).
Notation comp := (comp P A Q).
Implicit Types c : comp.

(** The same is known of every side. *)
Definition same_kn c c' : Prop := forall n s, kn c' n s = kn c n s.
Lemma same_refl : forall c, same_kn c c.
Proof. intros c n s. reflexivity. Qed.
Lemma same_trans : forall a b c, same_kn a b -> same_kn b c -> same_kn a c.
Proof. intros a b c H1 H2 n s. now rewrite H2, H1. Qed.

(** Only the graphs change, as the compiler may change them. *)
Definition moves c c' : Prop :=
  c_ops c' = c_ops c /\ c_exprs c' = c_exprs c /\ c_params c' = c_params c /\
  exists xs, Forall (compiler_step g) xs /\ TyGraph.compile_history tkey_eqb (c_tg c) xs = (c_tg c', Ok tt).
Lemma moves_same : forall c c', c_ops c' = c_ops c -> c_exprs c' = c_exprs c -> c_params c' = c_params c -> c_tg c' = c_tg c -> moves c c'.
Proof. intros c c' O E R T. split; [auto|]. split; [auto|]. split; [auto|]. exists []. split; [constructor|]. cbn. now rewrite T. Qed.
Lemma moves_refl : forall c, moves c c.
Proof. intros c. now apply moves_same. Qed.
Lemma moves_trans : forall a b c, moves a b -> moves b c -> moves a c.
Proof.
  intros a b c (O1 & E1 & R1 & xs & F1 & H1) (O2 & E2 & R2 & ys & F2 & H2). split; [congruence|]. split; [congruence|]. split; [congruence|]. exists (xs ++ ys).
  split; [now apply Forall_app|]. rewrite ResolveProofs.compile_app, H1. exact H2.
Qed.
Lemma moves_step : forall c c' x, c_ops c' = c_ops c -> c_exprs c' = c_exprs c -> c_params c' = c_params c -> compiler_step g x ->
  TyGraph.exec_c tkey_eqb (c_tg c) x = (c_tg c', Ok tt) -> moves c c'.
Proof. intros c c' x O E R X H. split; [auto|]. split; [auto|]. split; [auto|]. exists [x]. split; [constructor; [auto|constructor]|]. cbn [TyGraph.compile_history]. now rewrite H. Qed.

Lemma moves_settles : forall c c', moves c c' -> forall n s t, settles c n s t -> settles c' n s t.
Proof.
  intros c c' (_ & _ & _ & xs & _ & H) n s t S. unfold settles in *. pose proof (TyGraphProofs.compile_keeps tkey tkey_eqb tkey_eqb_eq xs (c_tg c)) as (_ & K & _).
  rewrite H in K. cbn [fst] in K. now apply K.
Qed.
Lemma moves_grows : forall c c', moves c c' -> grows c c'.
Proof.
  intros c c' M. split; [now apply moves_settles|]. destruct M as (O & E & _). unfold has_step, has_stack. rewrite O, E. auto.
Qed.
Lemma grows_refl : forall c, grows c c.
Proof. intros c. split; [auto|split; auto]. Qed.
Lemma grows_trans : forall a b c : comp, grows a b -> grows b c -> grows a c.
Proof. intros a b c (S1 & O1 & E1) (S2 & O2 & E2). split; [auto|split; auto]. Qed.

Definition change_ok (x : gchg) : Prop := match x with Tg x => compiler_chg g x | Lg _ => True end.
Lemma asked_ok : forall l, Forall change_ok (map asked l).
Proof. intros l. apply Forall_forall. intros x I. apply in_map_iff in I. destruct I as (a & <- & _). destruct a; exact Coq.Init.Logic.I. Qed.

Lemma apply_all_moves : forall cs c acc c' b, Forall change_ok cs -> apply_all order c cs acc = Good (c', b) ->
  moves c c' /\ c_depth c' = c_depth c /\ c_params c' = c_params c /\ c_infer c' = c_infer c /\ (b = false -> acc = false /\ same_kn c c').
Proof.
  induction cs as [|x cs IH]; intros c acc c' b F H; cbn [apply_all] in H.
  - injection H as <- <-. split; [apply moves_refl|]. repeat (split; [reflexivity|]). intros ->. split; [auto|apply same_refl].
  - apply Forall_cons_iff in F. destruct F as (Fx & F). destruct x as [x|x].
    + destruct (TyGraph.apply_chg tkey_eqb (fst (c_tg c)) x) as [tg [b1|e1|]] eqn:E; try discriminate.
      apply IH in H; [|exact F]. cbn in H. destruct H as (M & D & R & I & B). split; [|split; [auto|split; [auto|split; [auto|]]]].
      * eapply moves_trans; [|exact M]. apply moves_step with (x := TyGraph.CChanges [x]); [reflexivity|reflexivity|reflexivity|cbn; constructor; [exact Fx|constructor]|].
        cbn [TyGraph.exec_c TyGraph.apply_chgs]. rewrite E. reflexivity.
      * intros ->. destruct (B eq_refl) as (B1 & B2). apply orb_false_iff in B1. destruct B1 as (-> & ->). split; [reflexivity|].
        apply apply_false in E. destruct E as (E & _). intros n s. rewrite B2. unfold kn. cbn. apply E.
    + destruct (Locals.apply_chg order (c_lg c) x) as [[b1 lg]|e1|] eqn:E; try discriminate.
      apply IH in H; [|exact F]. cbn in H. destruct H as (M & D & R & I & B). split; [|split; [auto|split; [auto|split; [auto|]]]].
      * eapply moves_trans; [|exact M]. now apply moves_same.
      * intros ->. destruct (B eq_refl) as (B1 & B2). apply orb_false_iff in B1. destruct B1 as (-> & ->). split; [reflexivity|].
        intros n s. rewrite B2. reflexivity.
Qed.

(** A type that is claimed is settled. *)
Lemma apply_all_claims : forall cs c acc c' b n t, Forall change_ok cs -> apply_all order c cs acc = Good (c', b) ->
  In (Tg (TyGraph.KnownOutput n t)) cs -> kn c n TyGraph.Out_ <> None -> settles c' n TyGraph.Out_ t.
Proof.
  induction cs as [|x cs IH]; intros c acc c' b n t F H I K; [destruct I|]. apply Forall_cons_iff in F. destruct F as (Fx & F).
  cbn [apply_all] in H. destruct I as [->|I].
  - destruct (TyGraph.apply_chg tkey_eqb (fst (c_tg c)) _) as [tg [b1|e1|]] eqn:E; try discriminate.
    apply apply_all_moves in H; [|exact F]. destruct H as (M & _). eapply moves_settles; [exact M|]. unfold settles. cbn.
    eapply TyGraphProofs.claim_accepted; [exact tkey_eqb_eq| | |exact E]; [reflexivity|exact K].
  - destruct x as [x|x].
    + destruct (TyGraph.apply_chg tkey_eqb (fst (c_tg c)) x) as [tg [b1|e1|]] eqn:E; try discriminate. eapply IH; eauto. unfold kn. cbn.
      pose proof (TyGraphProofs.apply_chg_keeps tkey tkey_eqb tkey_eqb_eq (fst (c_tg c)) x) as (L & _). rewrite E in L. cbn in L.
      intros Z. apply K. unfold kn, kat in *. cbn [fst snd] in *. destruct (nth_error (TyGraph.nodes tg) n) eqn:N; [discriminate|].
      apply nth_error_None in N. rewrite <- L in N. apply nth_error_None in N. now rewrite N.
    + destruct (Locals.apply_chg order (c_lg c) x) as [[b1 lg]|e1|] eqn:E; try discriminate. eapply IH; eauto.
Qed.

Lemma resolve_moves : forall c c', resolve c = Good c' -> moves c c' /\
  (forall n s t, ty_at c' n s = Some t -> settles c' n s t).
Proof.
  intros c c' H. unfold resolve in H. destruct (TyGraph.exec_c tkey_eqb (c_tg c) (TyGraph.CResolve tkey)) as [s [u|e|]] eqn:E; try discriminate.
  injection H as <-. destruct u. split; [apply moves_step with (x := TyGraph.CResolve tkey); auto; exact I|].
  intros n sd t T. cbn [TyGraph.exec_c] in E. destruct (TyGraph.resolve_tg tkey_eqb _ (c_tg c)) as [[s' r]|] eqn:R; [|discriminate].
  injection E as -> ->. pose proof (ResolveProofs.resolve_rest tkey tkey_eqb _ _ _ R) as (NS & _).
  unfold ty_at, kn in T. cbn in T. unfold settles, TyGraphSpec.settled. cbn. specialize (NS (n, sd)). destruct (kat (fst s) (n, sd)) as [[|a|a|ts]|]; cbn in T; try discriminate.
  - left. congruence.
  - right. congruence.
  - destruct ts as [|a [|b ts]]; try discriminate. cbn in T. edestruct NS. reflexivity.
Qed.
End Moves.
