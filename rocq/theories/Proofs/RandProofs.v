From Coq Require Import List ZArith Bool Reals Lia Lra Floats.SpecFloat.
From Flocq Require Import Core.Core IEEE754.BinarySingleNaN.
From Verif Require Import Model.Base Model.Arith Model.Rand Spec.ArithSpec Spec.RandSpec Proofs.FloatProofs.
Import ListNotations.

Local Instance P53 : FLX.Prec_gt_0 53 := eq_refl.
Local Instance E1024 : Prec_lt_emax 53 1024 := eq_refl.
Notation B64 := (binary_float 53 1024).
Notation rnd := (round radix2 (SpecFloat.fexp 53 1024) (round_mode mode_NE)).

(** The operations of the standard library are those of Flocq (as in its file PrimFloat, without primitive floats). *)
Lemma nearest_equiv s m l : round_nearest_even m l = choice_mode mode_NE s m l.
Proof. case l; [reflexivity|intro c]. case c; [|reflexivity..]. now simpl; unfold Round.cond_incr; case Z.even. Qed.

Lemma round_aux_equiv s m e l : SpecFloat.binary_round_aux 53 1024 s m e l = binary_round_aux 53 1024 mode_NE s m e l.
Proof.
  unfold SpecFloat.binary_round_aux, binary_round_aux.
  set (mrse' := shr_fexp _ _ _). case mrse'; intros mrs' e'; simpl. now rewrite (nearest_equiv s).
Qed.

Lemma round_equiv s m e : SpecFloat.binary_round 53 1024 s m e = binary_round 53 1024 mode_NE s m e.
Proof.
  unfold SpecFloat.binary_round, binary_round, shl_align_fexp.
  set (mez := shl_align _ _ _); case mez as [mz ez]. apply round_aux_equiv.
Qed.

Lemma normalize_equiv m e z : SpecFloat.binary_normalize 53 1024 m e z = B2SF (binary_normalize 53 1024 _ _ mode_NE m e z).
Proof.
  case m as [|p|p]; [now simpl| |]; simpl; rewrite B2SF_SF2B; apply round_equiv.
Qed.

Lemma mul_equiv : forall x y : B64, f_mul (B2SF x) (B2SF y) = B2SF (Bmult mode_NE x y).
Proof.
  intros x y. unfold f_mul.
  case x as [sx|sx| |sx mx ex Bx]; case y as [sy|sy| |sy my ey By]; [now trivial..|].
  simpl. rewrite B2SF_SF2B. apply round_aux_equiv.
Qed.

Lemma add_equiv : forall x y : B64, f_add (B2SF x) (B2SF y) = B2SF (Bplus mode_NE x y).
Proof.
  intros x y. unfold f_add.
  case x as [sx|sx| |sx mx ex Bx]; case y as [sy|sy| |sy my ey By]; [now (trivial || simpl; case Bool.eqb)..|].
  apply normalize_equiv.
Qed.

Lemma sub_equiv : forall x y : B64, f_sub (B2SF x) (B2SF y) = B2SF (Bminus mode_NE x y).
Proof.
  intros x y. unfold f_sub.
  case x as [sx|sx| |sx mx ex Bx]; case y as [sy|sy| |sy my ey By]; [now (trivial || simpl; case Bool.eqb)..|].
  simpl. unfold Zminus. rewrite <- cond_Zopp_negb. apply normalize_equiv.
Qed.

Lemma finite_equiv : forall x : B64, f_finite (B2SF x) = is_finite x.
Proof. intros [s|s| |s m e H]; reflexivity. Qed.

Lemma lift : forall x, number x -> exists b : B64, x = B2SF b /\ is_finite b = true.
Proof.
  intros x [V F]. exists (SF2B x V). rewrite <- finite_equiv, B2SF_SF2B. split; [reflexivity|exact F].
Qed.

Lemma cmp_equiv : forall a b : B64, is_finite a = true -> is_finite b = true -> f_cmp (B2SF a) (B2SF b) = Some (Rcompare (B2R a) (B2R b)).
Proof. intros a b Ha Hb. exact (Bcompare_correct 53 1024 a b Ha Hb). Qed.

Lemma not_above_equiv : forall a b : B64, is_finite a = true -> is_finite b = true ->
  not_above (B2SF a) (B2SF b) <-> (B2R a <= B2R b)%R.
Proof.
  intros a b Ha Hb. unfold not_above. rewrite cmp_equiv by assumption. split.
  - intros [E|E]; injection E as E; [apply Rcompare_Lt_inv in E|apply Rcompare_Eq_inv in E]; lra.
  - intros H. destruct (Rle_lt_or_eq_dec _ _ H) as [L|L]; [left|right]; f_equal; [apply Rcompare_Lt|apply Rcompare_Eq]; exact L.
Qed.

Lemma overflow_not_finite : forall (b : B64) s, B2SF b = binary_overflow 53 1024 mode_NE s -> is_finite b = false.
Proof. intros b s E. rewrite <- finite_equiv, E. reflexivity. Qed.

Lemma add_value : forall a b : B64, is_finite a = true -> is_finite b = true -> is_finite (Bplus mode_NE a b) = true ->
  B2R (Bplus mode_NE a b) = rnd (B2R a + B2R b) /\ (Rabs (rnd (B2R a + B2R b)) < bpow radix2 1024)%R.
Proof.
  intros a b Ha Hb H. assert (Q := Bplus_correct 53 1024 _ _ mode_NE a b Ha Hb).
  destruct (Rlt_bool_spec (Rabs (rnd (B2R a + B2R b))) (bpow radix2 1024)) as [L|L].
  - split; [apply Q|exact L].
  - destruct Q as [Q _]. apply overflow_not_finite in Q. congruence.
Qed.

Lemma sub_value : forall a b : B64, is_finite a = true -> is_finite b = true -> is_finite (Bminus mode_NE a b) = true ->
  B2R (Bminus mode_NE a b) = rnd (B2R a - B2R b).
Proof.
  intros a b Ha Hb H. assert (Q := Bminus_correct 53 1024 _ _ mode_NE a b Ha Hb).
  destruct (Rlt_bool_spec (Rabs (rnd (B2R a - B2R b))) (bpow radix2 1024)) as [L|L].
  - apply Q.
  - destruct Q as [Q _]. apply overflow_not_finite in Q. congruence.
Qed.

Lemma rnd_mono : forall x y, (x <= y)%R -> (rnd x <= rnd y)%R.
Proof. intros x y H. apply round_le; [apply fexp_correct; reflexivity|apply valid_rnd_round_mode|exact H]. Qed.
Lemma rnd_id : forall b : B64, rnd (B2R b) = B2R b.
Proof. intros b. apply round_generic; [apply valid_rnd_round_mode|apply generic_format_B2R]. Qed.
Lemma rnd_0 : rnd 0 = 0%R.
Proof. apply round_0. apply valid_rnd_round_mode. Qed.

Lemma one_value : exists b : B64, one = B2SF b /\ is_finite b = true /\ B2R b = 1%R.
Proof.
  exists (@SF2B 53 1024 one eq_refl). split; [reflexivity|]. split; [reflexivity|].
  unfold one, SF2B, B2R, F2R. cbn [Fnum Fexp cond_Zopp].
  replace 4503599627370496%Z with (2 ^ 52)%Z by reflexivity.
  change (2 ^ 52)%Z with (Zpower radix2 52). rewrite IZR_Zpower by lia. rewrite <- bpow_plus. reflexivity.
Qed.

Lemma scale_range : forall r from to, drawn r -> number from -> number to -> f_cmp from to = Some Lt ->
  f_finite (f_sub to from) = true -> f_finite (f_add (f_sub to from) from) = true ->
  f_finite (scale r from to) = true /\ in_range from to (scale r from to).
Proof.
  intros r from to (Hr & Hr0 & Hr1) Hf Ht Hlt Hd Hs.
  destruct (lift r Hr) as (br & -> & Fr). destruct (lift from Hf) as (bf & -> & Ff). destruct (lift to Ht) as (bt & -> & Ft).
  destruct one_value as (b1 & E1 & F1 & V1).
  change zero with (B2SF (B754_zero false : B64)) in Hr0. rewrite not_above_equiv in Hr0 by (reflexivity || assumption). cbn [B2R] in Hr0.
  rewrite E1, cmp_equiv in Hr1 by assumption. injection Hr1 as Hr1. apply Rcompare_Lt_inv in Hr1. rewrite V1 in Hr1.
  rewrite cmp_equiv in Hlt by assumption. injection Hlt as Hlt. apply Rcompare_Lt_inv in Hlt.
  unfold in_range, scale in *. rewrite sub_equiv in *. set (bd := Bminus mode_NE bt bf) in *.
  rewrite finite_equiv in Hd. rewrite mul_equiv. rewrite !add_equiv in *. rewrite finite_equiv in *.
  assert (Vd : (0 <= B2R bd)%R).
  { unfold bd. rewrite sub_value by assumption. rewrite <- rnd_0. apply rnd_mono. lra. }
  set (bm := Bmult mode_NE br bd).
  assert (Hm : (0 <= rnd (B2R br * B2R bd) <= B2R bd)%R).
  { split.
    - rewrite <- rnd_0. apply rnd_mono. apply Rmult_le_pos; assumption.
    - rewrite <- (rnd_id bd) at 2. apply rnd_mono. rewrite <- (Rmult_1_l (B2R bd)) at 2. apply Rmult_le_compat_r; lra. }
  assert (Hm' : B2R bm = rnd (B2R br * B2R bd) /\ is_finite bm = true).
  { assert (Q := Bmult_correct 53 1024 _ _ mode_NE br bd). fold bm in Q. rewrite Rlt_bool_true in Q.
    - destruct Q as (Q1 & Q2 & _). rewrite Fr, Hd in Q2. split; assumption.
    - rewrite Rabs_pos_eq by apply Hm. apply Rle_lt_trans with (B2R bd); [apply Hm|].
      apply Rle_lt_trans with (Rabs (B2R bd)); [apply Rle_abs|]. apply (abs_B2R_lt_emax 53 1024 bd). }
  destruct Hm' as [Vm Fm]. rewrite <- Vm in Hm.
  destruct (add_value bd bf Hd Ff Hs) as [Vs Bs].
  assert (Lo : (B2R bf <= rnd (B2R bm + B2R bf))%R) by (rewrite <- (rnd_id bf) at 1; apply rnd_mono; lra).
  assert (Hi : (rnd (B2R bm + B2R bf) <= rnd (B2R bd + B2R bf))%R) by (apply rnd_mono; lra).
  assert (Q := Bplus_correct 53 1024 _ _ mode_NE bm bf Fm Ff). rewrite Rlt_bool_true in Q.
  - destruct Q as (Q1 & Q2 & _). split; [exact Q2|]. split.
    + apply not_above_equiv; [exact Ff|exact Q2|]. rewrite Q1. exact Lo.
    + apply not_above_equiv; [exact Q2|exact Hs|]. rewrite Q1, Vs. exact Hi.
  - assert (A := abs_B2R_lt_emax 53 1024 bf). apply Rabs_def2 in A. apply Rabs_def2 in Bs. apply Rabs_def1; lra.
Qed.

Lemma exactly_lift : forall x a k, exactly x a k -> exists b : B64, x = B2SF b /\ is_finite b = true /\ B2R b = (IZR a * bpow radix2 k)%R.
Proof.
  intros x a k H. destruct x as [s|s| |s m e]; cbn in H; try contradiction.
  - exists (B754_zero s). split; [reflexivity|]. split; [reflexivity|]. cbn [B2R]. rewrite H. lra.
  - destruct H as [V H]. exists (B754_finite s m e V). split; [reflexivity|]. split; [reflexivity|].
    cbn [B2R]. unfold F2R. cbn [Fnum Fexp].
    set (j := Z.min e k) in H. assert (Hj : (j <= e /\ j <= k)%Z) by (unfold j; lia).
    apply (f_equal IZR) in H. rewrite !mult_IZR in H.
    change 2%Z with (radix_val radix2) in H. rewrite !IZR_Zpower in H by lia.
    replace e with ((e - j) + j)%Z at 1 by lia. replace k with ((k - j) + j)%Z at 1 by lia.
    rewrite !bpow_plus, <- !Rmult_assoc. f_equal. rewrite <- H. f_equal.
Qed.

Lemma lifted_number : forall b : B64, is_finite b = true -> number (B2SF b).
Proof. intros b H. split; [apply valid_binary_B2SF|rewrite finite_equiv; exact H]. Qed.

Lemma scale_exact : forall r from to a b k, drawn r -> exactly from a k -> exactly to b k -> fits a k -> fits b k -> fits (b - a) k -> (a < b)%Z ->
  from_lt_to from to = true /\ f_finite (scale r from to) = true /\ not_above from (scale r from to) /\ not_above (scale r from to) to.
Proof.
  intros r from to a b k Hr Hf Ht Fa Fb Fd Hlt.
  assert (Hd : exactly (f_sub to from) (b - a) k) by (apply sub_exact; assumption).
  assert (Hs : exactly (f_add (f_sub to from) from) b k).
  { replace b with ((b - a) + a)%Z at 1 by lia. apply add_exact; [exact Hd|exact Hf|]. replace (b - a + a)%Z with b by lia. exact Fb. }
  destruct (exactly_lift _ _ _ Hf) as (bf & Ef & Ff & Vf). destruct (exactly_lift _ _ _ Ht) as (bt & Et & Ft & Vt).
  destruct (exactly_lift _ _ _ Hd) as (bd & Ed & Fd' & _). destruct (exactly_lift _ _ _ Hs) as (bs & Es & Fs & Vs).
  assert (L : f_cmp from to = Some Lt).
  { rewrite Ef, Et, cmp_equiv by assumption. f_equal. apply Rcompare_Lt. rewrite Vf, Vt.
    apply Rmult_lt_compat_r; [apply bpow_gt_0|apply IZR_lt; exact Hlt]. }
  destruct (scale_range r from to Hr) as [X [Y Z]].
  - rewrite Ef. apply lifted_number. exact Ff.
  - rewrite Et. apply lifted_number. exact Ft.
  - exact L.
  - rewrite Ed, finite_equiv. exact Fd'.
  - rewrite Es, finite_equiv. exact Fs.
  - split; [unfold from_lt_to; rewrite L; reflexivity|]. split; [exact X|]. split; [exact Y|].
    rewrite Es in Z.
    assert (E : forall c : f64, f_cmp c (B2SF bs) = f_cmp c (B2SF bt) \/ not_above c (B2SF bt) \/ ~ f_finite c = true \/ ~ valid_binary 53 1024 c = true).
    { intros c. destruct (f_finite c) eqn:Fc; [|right; right; left; discriminate].
      destruct (valid_binary 53 1024 c) eqn:Vc; [|right; right; right; discriminate].
      destruct (lift c (conj Vc Fc)) as (bc & -> & Fbc). left. rewrite !cmp_equiv by assumption. rewrite Vs, Vt. reflexivity. }
    unfold not_above in Z |- *.
    assert (Vx : valid_binary 53 1024 (scale r from to) = true).
    { unfold scale. rewrite Ed, Ef. destruct Hr as (Hr & _). destruct (lift r Hr) as (br & -> & _).
      rewrite mul_equiv, add_equiv. apply valid_binary_B2SF. }
    destruct (E (scale r from to)) as [Q|[Q|[Q|Q]]]; [rewrite <- Et in Q; rewrite <- Q; exact Z|rewrite <- Et in Q; exact Q|congruence|congruence].
Qed.

Lemma scale_zero : forall r to, drawn r -> number to -> f_cmp zero to = Some Lt ->
  f_finite (scale r zero to) = true /\ not_above zero (scale r zero to) /\ not_above (scale r zero to) to.
Proof.
  intros r to Hr Ht L. destruct (lift to Ht) as (bt & -> & Ft).
  assert (Es : f_sub (B2SF bt) zero = B2SF bt).
  { destruct bt as [s|s| |s m e H]; try discriminate Ft; [|reflexivity]. vm_compute in L. discriminate L. }
  assert (Ea : f_add (B2SF bt) zero = B2SF bt).
  { destruct bt as [s|s| |s m e H]; try discriminate Ft; [|reflexivity]. vm_compute in L. discriminate L. }
  destruct (scale_range r zero (B2SF bt) Hr) as [X [Y Z]]; [split; reflexivity|exact Ht|exact L|rewrite Es, finite_equiv; exact Ft|rewrite Es, Ea, finite_equiv; exact Ft|].
  rewrite Es, Ea in Z. split; [exact X|]. split; assumption.
Qed.

(** The whole intrinsic *)
Lemma rand_shape : forall uint draw args from to, range_of args from to ->
  (length args < 3 -> rand uint draw args = if from_lt_to from to then Ok (RNum (scale (draw 0%nat) from to)) else Err 0)%nat /\
  (forall n, args = [from; to; n] -> rand uint draw args =
    match uint n with Ok len => if from_lt_to from to then Ok (RTab (map (fun i => scale (draw i) from to) (seq 0 len))) else Err 0 | Err e => Err e | Panic => Panic end).
Proof.
  intros uint draw args from to H. destruct H; split; cbn [length]; intros; try discriminate; try lia; try reflexivity.
  injection H as ->. cbn [rand rbind]. destruct (uint n0); reflexivity.
Qed.

Definition result (out : rand_out) (x : f64) : Prop := match out with RNum y => x = y | RTab col => In x col end.

Lemma rand_results : forall uint draw args from to, range_of args from to -> forall out x, rand uint draw args = Ok out -> result out x ->
  from_lt_to from to = true /\ exists i, x = scale (draw i) from to.
Proof.
  intros uint draw args from to H out x E R. destruct (rand_shape uint draw args from to H) as [S1 S2].
  destruct (Nat.lt_ge_cases (length args) 3) as [L|L].
  - rewrite (S1 L) in E. destruct (from_lt_to from to) eqn:Q; [|discriminate E]. split; [reflexivity|].
    injection E as <-. cbn in R. exists 0%nat. exact R.
  - destruct H as [|t|f t|f t n]; cbn [length] in L; try lia.
    rewrite (S2 n eq_refl) in E. destruct (uint n) as [len| |]; try discriminate E.
    destruct (from_lt_to f t) eqn:Q; [|discriminate E]. split; [reflexivity|].
    injection E as <-. cbn in R. apply in_map_iff in R. destruct R as (i & <- & _). exists i. reflexivity.
Qed.

Lemma bounds_proof : forall uint draw args from to, (forall i, drawn (draw i)) -> range_of args from to ->
  (from = zero /\ number to) \/ (exists a b k, exactly from a k /\ exactly to b k /\ fits a k /\ fits b k /\ fits (b - a) k /\ (a < b)%Z) ->
  forall out x, rand uint draw args = Ok out -> (out = RNum x \/ exists col, out = RTab col /\ In x col) ->
  f_finite x = true /\ not_above from x /\ not_above x to.
Proof.
  intros uint draw args from to Hd Hr Hc out x E R.
  assert (R' : result out x) by (destruct R as [->|(col & -> & R)]; [reflexivity|exact R]).
  destruct (rand_results uint draw args from to Hr out x E R') as [L (i & ->)].
  destruct Hc as [[-> Ht]|(a & b & k & A & B & Fa & Fb & Fd & AB)].
  - apply scale_zero; [apply Hd|exact Ht|]. unfold from_lt_to in L. destruct (lift to Ht) as (bt & -> & Ft).
    change zero with (B2SF (B754_zero false : B64)) in *. rewrite cmp_equiv in * by (reflexivity || exact Ft).
    destruct (Rcompare _ _); [discriminate L|reflexivity|discriminate L].
  - apply (scale_exact (draw i) from to a b k); auto.
Qed.

Lemma general_proof : forall uint draw args from to, (forall i, drawn (draw i)) -> range_of args from to -> number from -> number to ->
  f_finite (f_sub to from) = true -> f_finite (f_add (f_sub to from) from) = true ->
  forall out x, rand uint draw args = Ok out -> (out = RNum x \/ exists col, out = RTab col /\ In x col) ->
  f_finite x = true /\ in_range from to x.
Proof.
  intros uint draw args from to Hd Hr Hf Ht F1 F2 out x E R.
  assert (R' : result out x) by (destruct R as [->|(col & -> & R)]; [reflexivity|exact R]).
  destruct (rand_results uint draw args from to Hr out x E R') as [L (i & ->)].
  apply scale_range; auto. unfold from_lt_to in L. destruct (lift from Hf) as (bf & -> & Ff). destruct (lift to Ht) as (bt & -> & Ft).
  rewrite cmp_equiv in * by assumption. destruct (Rcompare _ _); [discriminate L|reflexivity|discriminate L].
Qed.

Lemma outcome_proof : forall uint draw args from to, range_of args from to -> number from -> number to ->
  (f_cmp from to = Some Lt -> (length args < 3)%nat -> exists x, rand uint draw args = Ok (RNum x)) /\
  (f_cmp from to = Some Lt -> forall n len, args = [from; to; n] -> uint n = Ok len -> exists col, rand uint draw args = Ok (RTab col) /\ length col = len) /\
  (not_above to from -> forall out, rand uint draw args <> Ok out).
Proof.
  intros uint draw args from to H Hf Ht. destruct (rand_shape uint draw args from to H) as [S1 S2]. split; [|split].
  - intros L Hl. rewrite (S1 Hl). unfold from_lt_to. rewrite L. eexists. reflexivity.
  - intros L n len E Hu. rewrite (S2 n E), Hu. unfold from_lt_to. rewrite L. eexists. split; [reflexivity|]. rewrite map_length, seq_length. reflexivity.
  - intros L out E.
    assert (X : from_lt_to from to = false).
    { unfold from_lt_to. destruct (lift from Hf) as (bf & -> & Ff). destruct (lift to Ht) as (bt & -> & Ft).
      apply not_above_equiv in L; [|assumption..]. rewrite cmp_equiv by assumption.
      destruct (Rcompare_spec (B2R bf) (B2R bt)); [lra|reflexivity|reflexivity]. }
    destruct (Nat.lt_ge_cases (length args) 3) as [Hl|Hl].
    + rewrite (S1 Hl), X in E. discriminate E.
    + destruct H as [|t|f t|f t n]; cbn [length] in Hl; try lia.
      rewrite (S2 n eq_refl), X in E. destruct (uint n); discriminate E.
Qed.
