(** What a list of changes makes smaller. *)
From Coq Require Import String List NArith Bool Arith Lia.
From Verif Require Import Model.Base Model.Value Model.Ast Model.Registry Model.AstGraph Model.TyBuild Model.Compile Proofs.TyBuildNodes
  Proofs.HaltLex Proofs.HaltLocals Proofs.HaltTypes Spec.HaltSpec.
From Verif Require Model.TyGraph Model.Locals Model.Infer Spec.TyGraphSpec Proofs.TyGraphProofs Proofs.ResolveProofs.
Import ListNotations.

Section Batch.
Variables (P A Q : Type) (order : Locals.lmap -> Locals.lmap) (names : list str) (told : TyGraph.slot -> bool) (NB : nat).
Notation comp := (comp P A Q).
Implicit Types c : comp.

Definition tlv c : list nat := tgv NB told (c_tg c) ++ lgv names (c_lg c).
Definition inv c : Prop := length (TyGraph.nodes (fst (c_tg c))) <= NB.
Definition frame c c' : Prop := c_ops c' = c_ops c /\ c_exprs c' = c_exprs c /\ c_params c' = c_params c /\ c_depth c' = c_depth c.
Lemma frame_refl : forall c, frame c c.
Proof. intros c. repeat split. Qed.
Lemma frame_trans : forall a b c, frame a b -> frame b c -> frame a c.
Proof. intros a b c (A1 & A2 & A3 & A4) (B1 & B2 & B3 & B4). repeat split; congruence. Qed.

Definition plain (x : gchg) : Prop := match x with Tg (TyGraph.AnonTy _) | Lg (Locals.SealExpr _) => False | _ => True end.
Definition is_calm (x : gchg) : Prop := match x with Tg x => calm told x | Lg (Locals.SealExpr _) => False | _ => True end.
Definition newname (x : gchg) : option (str * nat) := match x with Lg x => new_name x | _ => None end.

Lemma apply_shrinks : forall cs c acc c' b, inv c -> Forall plain cs -> apply_all order c cs acc = Good (c', b) ->
  shrinks NB (fst (c_tg c)) (fst (c_tg c')) /\ snd (c_tg c') = snd (c_tg c) /\ frame c c' /\ inv c' /\
  length (Locals.lg_nodes (c_lg c')) = length (Locals.lg_nodes (c_lg c)) /\ (forall p, named (c_lg c) p = true -> named (c_lg c') p = true).
Proof.
  induction cs as [|x cs IH]; intros c acc c' b I F H; cbn [apply_all] in H.
  - injection H as <- <-. split; [apply shrinks_refl|]. split; [reflexivity|]. split; [apply frame_refl|]. auto.
  - apply Forall_cons_iff in F. destruct F as (Fx & F). destruct x as [x|x].
    + destruct (TyGraph.apply_chg tkey_eqb (fst (c_tg c)) x) as [tg [b0|e|]] eqn:E; try discriminate.
      assert (S : shrinks NB (fst (c_tg c)) tg) by (eapply any_step; [exact I| |exact E]; intros t ->; exact Fx).
      assert (I' : inv (set_tg c (tg, snd (c_tg c)))) by (destruct S as ((L & _) & _); unfold inv in *; cbn; lia).
      apply IH in H; auto. destruct H as (S2 & D & FR & I2 & LL & N). split; [eapply shrinks_trans; eauto|]. split; [exact D|]. split; [exact FR|]. auto.
    + destruct (Locals.apply_chg order (c_lg c) x) as [[b0 lg]|e|] eqn:E; try discriminate.
      assert (K : length (Locals.lg_nodes lg) = length (Locals.lg_nodes (c_lg c)) /\ forall p, named (c_lg c) p = true -> named lg p = true).
      { destruct (new_name x) as [p|] eqn:NN.
        - eapply new_keep in E; eauto. destruct E as (K & _). split; [now apply lkeep_length|]. apply K.
        - eapply other_lgv with (names := names) in E; eauto; [|intros n ->; exact Fx]. destruct E as (L & N & _). split; [auto|]. intros p Z. now rewrite N. }
      apply IH in H; auto. cbn [c_tg c_lg set_lg] in H. destruct H as (S2 & D & FR & I2 & LL & N). destruct K as (K1 & K2).
      split; [exact S2|]. split; [exact D|]. split; [exact FR|]. split; [exact I2|]. split; [congruence|auto].
Qed.
Lemma apply_claim : forall cs c acc c' b x p u, inv c -> Forall plain cs -> apply_all order c cs acc = Good (c', b) ->
  In (Tg x) cs -> TyGraphSpec.claims x = Some (p, u) -> TyGraph.kn_at (fst (c_tg c)) p <> None -> TyGraphSpec.settled (fst (c_tg c')) p u.
Proof.
  induction cs as [|y cs IH]; intros c acc c' b x p u I F H J C K; [destruct J|]. cbn [apply_all] in H.
  apply Forall_cons_iff in F. destruct F as (Fx & F). destruct y as [y|y].
  - destruct (TyGraph.apply_chg tkey_eqb (fst (c_tg c)) y) as [tg [b0|e|]] eqn:E; try discriminate.
    assert (S : shrinks NB (fst (c_tg c)) tg) by (eapply any_step; [exact I| |exact E]; intros t ->; exact Fx).
    assert (I' : inv (set_tg c (tg, snd (c_tg c)))) by (destruct S as ((L & _) & _); unfold inv in *; cbn; lia).
    destruct J as [J|J].
    + injection J as ->. assert (Z : TyGraphSpec.settled tg p u) by (eapply TyGraphProofs.claim_accepted; eauto using tkey_eqb_eq).
      apply apply_shrinks in H; auto. destruct H as ((KK & _) & _). cbn [c_tg set_tg fst] in KK. now apply KK.
    + eapply IH; [exact I'|exact F|exact H|exact J|exact C|]. cbn [c_tg set_tg fst]. destruct S as ((L & _) & _). apply TyGraphProofs.kn_at_bound in K.
      apply TyGraphProofs.kn_at_bound. lia.
  - destruct (Locals.apply_chg order (c_lg c) y) as [[b0 lg]|e|] eqn:E; try discriminate. destruct J as [J|J]; [discriminate|].
    eapply IH with (c := set_lg c lg); eauto.
Qed.
Lemma apply_new : forall cs c acc c' b x p, inv c -> Forall plain cs -> apply_all order c cs acc = Good (c', b) ->
  In x cs -> newname x = Some p -> named (c_lg c') p = true.
Proof.
  induction cs as [|y cs IH]; intros c acc c' b x p I F H J C; [destruct J|]. cbn [apply_all] in H.
  apply Forall_cons_iff in F. destruct F as (Fx & F). destruct y as [y|y].
  - destruct (TyGraph.apply_chg tkey_eqb (fst (c_tg c)) y) as [tg [b0|e|]] eqn:E; try discriminate.
    assert (S : shrinks NB (fst (c_tg c)) tg) by (eapply any_step; [exact I| |exact E]; intros t ->; exact Fx).
    destruct J as [J|J]; [subst x; discriminate|]. eapply IH; [|exact F|exact H|exact J|exact C]. destruct S as ((L & _) & _); unfold inv in *; cbn; lia.
  - destruct (Locals.apply_chg order (c_lg c) y) as [[b0 lg]|e|] eqn:E; try discriminate. destruct J as [J|J].
    + subst x. cbn [newname] in C. eapply new_keep in E; eauto. destruct E as (_ & N). apply apply_shrinks in H; auto. destruct H as (_ & _ & _ & _ & _ & M). apply M. exact N.
    + eapply IH with (c := set_lg c lg); eauto.
Qed.
Lemma calm_plain : forall cs, Forall is_calm cs -> Forall plain cs.
Proof. intros cs. apply Forall_impl. intros [[]|[]]; cbn; auto. Qed.
Lemma apply_calm : forall cs c acc c' b, inv c -> Forall is_calm cs -> apply_all order c cs acc = Good (c', b) ->
  lexeq (tgv NB told (c_tg c')) (tgv NB told (c_tg c)) /\
  (Forall (fun x => newname x = None) cs -> lexeq (tlv c') (tlv c) /\ (b = true -> acc = true \/ lex (tlv c') (tlv c))).
Proof.
  induction cs as [|x cs IH]; intros c acc c' b I F H; cbn [apply_all] in H.
  - injection H as <- <-. split; [apply lexeq_refl|]. intros _. split; [apply lexeq_refl|auto].
  - apply Forall_cons_iff in F. destruct F as (Fx & F). destruct x as [x|x].
    + destruct (TyGraph.apply_chg tkey_eqb (fst (c_tg c)) x) as [tg [b0|e|]] eqn:E; try discriminate.
      assert (S : shrinks NB (fst (c_tg c)) tg) by (eapply any_step; [exact I| |exact E]; intros t ->; exact Fx).
      assert (I' : inv (set_tg c (tg, snd (c_tg c)))) by (destruct S as ((L & _) & _); unfold inv in *; cbn; lia).
      pose proof (calm_step NB told (fst (c_tg c)) x tg b0 (snd (c_tg c)) I Fx E) as (L1 & L2). destruct (c_tg c) as [tg0 d] eqn:CT. cbn [fst snd] in *.
      apply IH in H; auto. destruct H as (T & U). cbn [c_tg set_tg] in T. split; [eapply lexeq_trans; eauto|]. intros NN. apply Forall_cons_iff in NN. destruct NN as (_ & NN).
      destruct (U NN) as (U1 & U2). clear U.
      assert (X : lexeq (tlv (set_tg c (tg, d))) (tlv c)).
      { unfold tlv. cbn [c_tg c_lg set_tg]. rewrite CT. apply lexeq_app; [exact L1|reflexivity|apply lexeq_refl]. }
      split; [eapply lexeq_trans; eauto|]. intros B. destruct (U2 B) as [Z|Z]; [|right; eapply lex_lexeq; eauto]. apply orb_true_iff in Z. destruct Z as [Z|Z]; [auto|].
      right. eapply lexeq_lex; [exact U1|]. unfold tlv. cbn [c_tg c_lg set_tg]. rewrite CT. apply lex_app; auto.
    + destruct (Locals.apply_chg order (c_lg c) x) as [[b0 lg]|e|] eqn:E; try discriminate.
      apply IH in H; auto. destruct H as (T & U). cbn [c_tg set_lg] in T. split; [exact T|]. intros NN. apply Forall_cons_iff in NN. destruct NN as (N1 & NN).
      destruct (U NN) as (U1 & U2). clear U. cbn [newname] in N1. eapply other_lgv with (names := names) in E; eauto; [|intros n ->; exact Fx].
      destruct E as (_ & _ & L1 & L2).
      assert (X : lexeq (tlv (set_lg c lg)) (tlv c)) by (unfold tlv; cbn [c_tg c_lg set_lg]; apply lexeq_app; [apply lexeq_refl|reflexivity|exact L1]).
      split; [eapply lexeq_trans; eauto|]. intros B. destruct (U2 B) as [Z|Z]; [|right; eapply lex_lexeq; eauto]. apply orb_true_iff in Z. destruct Z as [Z|Z]; [auto|].
      right. eapply lexeq_lex; [exact U1|]. unfold tlv. cbn [c_tg c_lg set_lg]. apply lex_under; auto.
Qed.

(** What may be asked for, compared with the state all of the changes start from *)
Definition fair c (x : gchg) : Prop :=
  match x with
  | Tg (TyGraph.KnownInput n _) => told (n, TyGraph.In_) = true \/ loose c (n, TyGraph.In_)
  | Tg (TyGraph.ObligeInput n _) => told (n, TyGraph.In_) = false \/ loose c (n, TyGraph.In_)
  | Tg (TyGraph.KnownOutput n _) => told (n, TyGraph.Out_) = true \/ loose c (n, TyGraph.Out_)
  | Tg (TyGraph.ObligeOutput n _) => told (n, TyGraph.Out_) = false \/ loose c (n, TyGraph.Out_)
  | Tg (TyGraph.AnonTy _) => False
  | Tg _ => True
  | Lg (Locals.NewVar x _ n) | Lg (Locals.NewLazy x _ n) => In x names /\ unnamed (c_lg c) x n
  | Lg (Locals.SealExpr _) => False
  | Lg _ => True
  end.
Lemma fair_plain : forall c cs, Forall (fair c) cs -> Forall plain cs.
Proof. intros c cs. apply Forall_impl. intros [[]|[]]; cbn; auto. Qed.
Lemma unnamed_named : forall lg x n, unnamed lg x n -> named lg (x, n) = false.
Proof.
  intros lg x n H. unfold named. cbn [fst snd]. destruct (nth_error (Locals.lg_nodes lg) n) as [v|] eqn:E; [|reflexivity].
  destruct (alookup str_eqb x (Locals.va_map v)) as [l|] eqn:L; [|reflexivity]. apply Nat.eqb_neq. eauto.
Qed.
Lemma loose_open : forall c p, loose c p -> exists k, TyGraph.kn_at (fst (c_tg c)) p = Some k /\ isopen p k = 1.
Proof. intros c p H. unfold loose in H. destruct (TyGraph.kn_at _ _) as [[|t|t|ts]|]; try contradiction; eauto. Qed.
Lemma multiple_loose : forall c n s, multiple_at c n s = true -> loose c (n, s).
Proof. intros c n s H. unfold multiple_at, kn in H. unfold loose. destruct (TyGraph.kn_at _ _) as [[|t|t|ts]|]; try discriminate. exact I. Qed.
Definition hot (x : gchg) : bool :=
  match x with
  | Tg (TyGraph.KnownInput n _) => negb (told (n, TyGraph.In_)) | Tg (TyGraph.ObligeInput n _) => told (n, TyGraph.In_)
  | Tg (TyGraph.KnownOutput n _) => negb (told (n, TyGraph.Out_)) | Tg (TyGraph.ObligeOutput n _) => told (n, TyGraph.Out_)
  | _ => false
  end.
Lemma fair_hot : forall c x, fair c x -> hot x = true -> exists y p u, x = Tg y /\ TyGraphSpec.claims y = Some (p, u) /\
  exists k, TyGraph.kn_at (fst (c_tg c)) p = Some k /\ isopen p k = 1.
Proof.
  intros c [[n t|n t|n t|n|n t|n t|n t|a b f|t]|x] F H; try discriminate; cbn [hot fair] in *.
  all: destruct F as [F|F]; [rewrite F in H; discriminate|]; apply loose_open in F.
  - exists (TyGraph.KnownInput n t), (n, TyGraph.In_), t. auto.
  - exists (TyGraph.ObligeInput n t), (n, TyGraph.In_), t. auto.
  - exists (TyGraph.KnownOutput n t), (n, TyGraph.Out_), t. auto.
  - exists (TyGraph.ObligeOutput n t), (n, TyGraph.Out_), t. auto.
Qed.
Lemma fair_cool : forall c x, fair c x -> hot x = false -> is_calm x.
Proof.
  intros c [[n t|n t|n t|n|n t|n t|n t|a b f|t]|[]] F H; cbn [hot fair is_calm calm] in *; auto; try discriminate; now apply negb_false_iff in H.
Qed.

Lemma batch : forall cs c c0 c' b, inv c -> c_tg c = c_tg c0 -> c_lg c = c_lg c0 -> Forall (fair c0) cs -> apply_all order c cs false = Good (c', b) ->
  frame c c' /\ inv c' /\ lexeq (tlv c') (tlv c) /\ (b = true -> lex (tlv c') (tlv c)).
Proof.
  intros cs c c0 c' b I T0 L0 F H. pose proof (fair_plain _ _ F) as PL. pose proof (apply_shrinks _ _ _ _ _ I PL H) as (S & D & FR & I' & LL & NM).
  split; [exact FR|]. split; [exact I'|]. enough (W : lex (tlv c') (tlv c) \/ (lexeq (tlv c') (tlv c) /\ (b = true -> lex (tlv c') (tlv c)))).
  { destruct W as [X|X]; [split; [now right|auto]|exact X]. }
  destruct (existsb hot cs) eqn:HT.
  - left. apply existsb_exists in HT. destruct HT as (x & J & HT). assert (FX : fair c0 x) by (rewrite Forall_forall in F; auto).
    destruct (fair_hot _ _ FX HT) as (y & p & u & -> & C & k & K & O). rewrite <- T0 in K.
    assert (Z : TyGraphSpec.settled (fst (c_tg c')) p u) by (eapply apply_claim; [exact I|exact PL|exact H|exact J|exact C|]; intros KN; unfold tg_t in *; congruence).
    unfold tlv. apply lex_app; [|reflexivity]. destruct (c_tg c) as [tg d], (c_tg c') as [tg' d']. cbn [fst snd] in *. subst d'. eapply shrinks_open; eauto.
  - assert (CA : Forall is_calm cs).
    { apply Forall_forall. intros x J. rewrite Forall_forall in F. eapply fair_cool; eauto. destruct (hot x) eqn:E; [|reflexivity].
      assert (existsb hot cs = true) by (apply existsb_exists; eauto). congruence. }
    pose proof (apply_calm _ _ _ _ _ I CA H) as (TL & NL).
    destruct (existsb (fun x => match newname x with Some _ => true | None => false end) cs) eqn:NN.
    + left. apply existsb_exists in NN. destruct NN as (x & J & NN). destruct (newname x) as [[y n]|] eqn:EN; [|discriminate].
      assert (FX : fair c0 x) by (rewrite Forall_forall in F; auto).
      assert (U : In y names /\ unnamed (c_lg c) y n).
      { rewrite L0. destruct x as [x|[]]; try discriminate; cbn in EN; injection EN as -> ->; exact FX. }
      destruct U as (IY & U). apply unnamed_named in U.
      assert (Z : named (c_lg c') (y, n) = true) by (eapply apply_new; [exact I|exact PL|exact H|exact J|exact EN]).
      unfold tlv. apply lex_app_r; [exact TL|]. constructor 1; [|reflexivity]. eapply keep_unnamed_lt; [exact LL|exact NM|exact IY|exact U|exact Z].
    + right. destruct NL as (N1 & N2).
      { apply Forall_forall. intros x J. destruct (newname x) eqn:E; [|reflexivity].
        assert (existsb (fun x => match newname x with Some _ => true | None => false end) cs = true) by (apply existsb_exists; exists x; rewrite E; auto). congruence. }
      split; [exact N1|]. intros B. destruct (N2 B) as [Z|Z]; [discriminate|exact Z].
Qed.
Lemma apply_fuel : forall cs c acc, apply_all order c cs acc <> NoFuel.
Proof.
  induction cs as [|[x|x] cs IH]; intros c acc; cbn [apply_all]; [discriminate| |].
  - destruct (TyGraph.apply_chg tkey_eqb (fst (c_tg c)) x) as [tg [b0|e|]]; try discriminate. apply IH.
  - destruct (Locals.apply_chg order (c_lg c) x) as [[b0 lg]|e|]; try discriminate. apply IH.
Qed.
End Batch.
