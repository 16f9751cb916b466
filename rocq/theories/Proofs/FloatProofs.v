(** Floating point operations are exact when the result fits. *)
From Coq Require Import List ZArith Bool Lia Floats.SpecFloat.
From Verif Require Import Model.Base Model.Arith Spec.ArithSpec.
Import ListNotations.
Open Scope Z_scope.

Notation fexp := (fexp 53 1024).
Definition dig (p : positive) : Z := Z.pos (digits2_pos p).

Lemma dig_bounds : forall p, 2 ^ (dig p - 1) <= Z.pos p < 2 ^ dig p.
Proof.
  unfold dig. induction p as [p IH|p IH|]; cbn [digits2_pos].
  - rewrite Pos2Z.inj_succ. replace (Z.succ _ - 1) with (Z.pos (digits2_pos p)) by lia.
    rewrite Z.pow_succ_r by lia. replace (Z.pos (digits2_pos p)) with (Z.succ (Z.pos (digits2_pos p) - 1)) at 1 by lia.
    rewrite Z.pow_succ_r by lia. lia.
  - rewrite Pos2Z.inj_succ. replace (Z.succ _ - 1) with (Z.pos (digits2_pos p)) by lia.
    rewrite Z.pow_succ_r by lia. replace (Z.pos (digits2_pos p)) with (Z.succ (Z.pos (digits2_pos p) - 1)) at 1 by lia.
    rewrite Z.pow_succ_r by lia. lia.
  - cbn. lia.
Qed.

Lemma dig_pos : forall p, 1 <= dig p.
Proof. unfold dig. lia. Qed.

Lemma dig_unique : forall p d, 1 <= d -> 2 ^ (d - 1) <= Z.pos p < 2 ^ d -> dig p = d.
Proof.
  intros p d Hd [A B]. destruct (dig_bounds p) as [C D]. pose proof (dig_pos p).
  assert (~ d < dig p). { intros L. assert (2 ^ d <= 2 ^ (dig p - 1)) by (apply Z.pow_le_mono_r; lia). lia. }
  assert (~ dig p < d). { intros L. assert (2 ^ dig p <= 2 ^ (d - 1)) by (apply Z.pow_le_mono_r; lia). lia. }
  lia.
Qed.

Lemma dig_le : forall p q, Z.pos p <= Z.pos q -> dig p <= dig q.
Proof.
  intros p q L. destruct (dig_bounds p) as [A _], (dig_bounds q) as [_ B]. destruct (Z.le_gt_cases (dig p) (dig q)); auto.
  assert (2 ^ dig q <= 2 ^ (dig p - 1)) by (apply Z.pow_le_mono_r; pose proof (dig_pos q); lia). lia.
Qed.

Lemma dig_below : forall p n, 0 <= n -> Z.pos p < 2 ^ n -> dig p <= n.
Proof.
  intros p n Hn L. destruct (dig_bounds p) as [A _]. destruct (Z.le_gt_cases (dig p) n); auto.
  assert (2 ^ n <= 2 ^ (dig p - 1)) by (apply Z.pow_le_mono_r; lia). lia.
Qed.

Lemma dig_shift : forall p q n, 0 <= n -> Z.pos q = Z.pos p * 2 ^ n -> dig q = dig p + n.
Proof.
  intros p q n Hn E. pose proof (dig_pos p). apply dig_unique; [lia|]. rewrite E. destruct (dig_bounds p) as [A B].
  replace (dig p + n - 1) with ((dig p - 1) + n) by lia. rewrite !Z.pow_add_r by lia.
  pose proof (Z.pow_pos_nonneg 2 n). nia.
Qed.

Lemma dig_mul : forall p q, dig p + dig q - 1 <= dig (p * q) <= dig p + dig q.
Proof.
  intros p q. destruct (dig_bounds p) as [A B], (dig_bounds q) as [C D]. pose proof (dig_pos p). pose proof (dig_pos q).
  destruct (dig_bounds (p * q)) as [E F]. rewrite Pos2Z.inj_mul in *. pose proof (dig_pos (p * q)).
  assert (0 < 2 ^ (dig p - 1)) by (apply Z.pow_pos_nonneg; lia). assert (0 < 2 ^ (dig q - 1)) by (apply Z.pow_pos_nonneg; lia).
  split.
  - destruct (Z.le_gt_cases (dig p + dig q - 1) (dig (p * q))); auto.
    assert (Q : 2 ^ dig (p * q) <= 2 ^ ((dig p - 1) + (dig q - 1))) by (apply Z.pow_le_mono_r; lia).
    rewrite (Z.pow_add_r 2 (dig p - 1)) in Q by lia. nia.
  - apply (dig_below (p * q)); [lia|]. rewrite Z.pow_add_r by lia. rewrite Pos2Z.inj_mul. nia.
Qed.

(** ** Equal values *)
Definition sv (m e a k : Z) : Prop := forall j, j <= e -> j <= k -> m * 2 ^ (e - j) = a * 2 ^ (k - j).

Lemma pow_split : forall a b c, c <= b -> b <= a -> 2 ^ (a - c) = 2 ^ (a - b) * 2 ^ (b - c).
Proof. intros a b c H1 H2. rewrite <- Z.pow_add_r by lia. f_equal. lia. Qed.

Lemma sv_one : forall m e a k j, j <= e -> j <= k -> m * 2 ^ (e - j) = a * 2 ^ (k - j) -> sv m e a k.
Proof.
  intros m e a k j He Hk E i Hie Hik.
  destruct (Z.le_gt_cases i j).
  - rewrite (pow_split e j i), (pow_split k j i) by lia. rewrite !Z.mul_assoc, E. reflexivity.
  - rewrite (pow_split e i j), (pow_split k i j) in E by lia. rewrite !Z.mul_assoc in E.
    apply Z.mul_reg_r in E; auto. apply Z.pow_nonzero; lia.
Qed.

Lemma sv_sym : forall m e a k, sv m e a k -> sv a k m e.
Proof. intros m e a k H j A B. symmetry. apply H; auto. Qed.

Lemma sv_trans : forall m e a k b l, sv m e a k -> sv a k b l -> sv m e b l.
Proof.
  intros m e a k b l A B. set (j := Z.min e (Z.min k l)). apply (sv_one m e b l j); try lia.
  rewrite (A j) by lia. apply B; lia.
Qed.

Lemma sv_refl : forall m e, sv m e m e.
Proof. intros m e j _ _. reflexivity. Qed.

Lemma sv_low : forall m e a k, sv m e a k -> e <= k -> m = a * 2 ^ (k - e).
Proof. intros m e a k H L. specialize (H e). rewrite Z.sub_diag, Z.pow_0_r, Z.mul_1_r in H. apply H; lia. Qed.

Lemma sv_shift : forall m e n, 0 <= n -> sv (m * 2 ^ n) (e - n) m e.
Proof.
  intros m e n H. apply (sv_one _ _ _ _ (e - n)); try lia. rewrite Z.sub_diag, Z.pow_0_r, Z.mul_1_r.
  f_equal. f_equal. lia.
Qed.

Lemma sv_mul : forall m e a k m' e' a' k', sv m e a k -> sv m' e' a' k' -> sv (m * m') (e + e') (a * a') (k + k').
Proof.
  intros m e a k m' e' a' k' A B. set (j := Z.min e k). set (j' := Z.min e' k'). apply (sv_one _ _ _ _ (j + j')); try lia.
  replace (e + e' - (j + j')) with ((e - j) + (e' - j')) by lia.
  replace (k + k' - (j + j')) with ((k - j) + (k' - j')) by lia. rewrite !Z.pow_add_r by lia.
  specialize (A j ltac:(lia) ltac:(lia)). specialize (B j' ltac:(lia) ltac:(lia)).
  rewrite Z.mul_shuffle1, A, B. apply Z.mul_shuffle1.
Qed.

Lemma sv_opp : forall m e a k, sv m e a k -> sv (- m) e (- a) k.
Proof. intros m e a k A j H1 H2. specialize (A j H1 H2). lia. Qed.

Lemma sv_zero : forall e a k, sv 0 e a k -> a = 0.
Proof.
  intros e a k H. specialize (H (Z.min e k) ltac:(lia) ltac:(lia)). rewrite Z.mul_0_l in H. symmetry in H.
  apply Z.mul_eq_0 in H. destruct H as [H|H]; auto. exfalso. revert H. apply Z.pow_nonzero; lia.
Qed.

Lemma sv_sign : forall m e a k, sv m e a k -> Z.sgn m = Z.sgn a.
Proof.
  intros m e a k H. specialize (H (Z.min e k) ltac:(lia) ltac:(lia)). apply (f_equal Z.sgn) in H.
  rewrite !Z.sgn_mul in H. assert (P : forall n, 0 <= n -> Z.sgn (2 ^ n) = 1) by (intros n L; apply Z.sgn_pos, Z.pow_pos_nonneg; lia).
  rewrite !P in H by lia. lia.
Qed.

Lemma sv_dig : forall m e p k, sv (Z.pos m) e (Z.pos p) k -> dig m + e = dig p + k.
Proof.
  intros m e p k H. set (j := Z.min e k). specialize (H j ltac:(lia) ltac:(lia)).
  assert (0 < 2 ^ (e - j)) by (apply Z.pow_pos_nonneg; lia).
  assert (exists q, Z.pos q = Z.pos m * 2 ^ (e - j)) as (q & Eq).
  { exists (Z.to_pos (Z.pos m * 2 ^ (e - j))). rewrite Z2Pos.id; lia. }
  pose proof (dig_shift m q (e - j) ltac:(lia) Eq). rewrite H in Eq.
  pose proof (dig_shift p q (k - j) ltac:(lia) Eq). lia.
Qed.

(** ** Shifting *)
Definition rec (m : Z) : shr_record := {| shr_m := m; shr_r := false; shr_s := false |}.
Lemma shr_1_even : forall m, 0 < m -> shr_1 (rec (m * 2)) = rec m.
Proof. intros m H. destruct m as [|p|p]; try lia. rewrite Z.mul_comm. reflexivity. Qed.

Lemma shr_iter : forall n m, 0 < m -> iter_pos shr_1 n (rec (m * 2 ^ Z.pos n)) = rec m.
Proof.
  induction n as [n IH|n IH|]; intros m H; cbn [iter_pos].
  - assert (0 < 2 ^ Z.pos n) by (apply Z.pow_pos_nonneg; lia).
    replace (Z.pos n~1) with (Z.pos n + Z.pos n + 1) by lia. rewrite !Z.pow_add_r by lia. rewrite Z.pow_1_r, !Z.mul_assoc.
    rewrite shr_1_even by nia. rewrite IH by nia. apply IH. lia.
  - assert (0 < 2 ^ Z.pos n) by (apply Z.pow_pos_nonneg; lia).
    replace (Z.pos n~0) with (Z.pos n + Z.pos n) by lia. rewrite !Z.pow_add_r by lia. rewrite !Z.mul_assoc.
    rewrite IH by nia. apply IH. lia.
  - rewrite Z.pow_1_r. apply shr_1_even. lia.
Qed.

Lemma shr_exact : forall n m e, 0 <= n -> 0 < m -> shr (rec (m * 2 ^ n)) e n = (rec m, e + n).
Proof.
  intros n m e Hn Hm. destruct n as [|n|n]; [|unfold shr; rewrite shr_iter by lia; reflexivity|lia].
  cbn [shr]. rewrite Z.pow_0_r, Z.mul_1_r, Z.add_0_r. reflexivity.
Qed.

Lemma shift_pos_mul : forall d m, Z.pos (shift_pos d m) = Z.pos m * 2 ^ Z.pos d.
Proof. intros d m. rewrite shift_pos_correct. unfold Z.pow. lia. Qed.

(** ** Rounding what fits *)
(** the form of [p * 2^k] in the format *)
Definition ce (p : positive) (k : Z) : Z := fexp (dig p + k).
Definition cm (p : positive) (k : Z) : positive := Z.to_pos (Z.pos p * 2 ^ (k - ce p k)).

Lemma ce_le : forall p k, Z.pos p < 2 ^ 53 -> -1074 <= k -> ce p k <= k.
Proof.
  intros p k Hp Hk. unfold ce, SpecFloat.fexp, emin. pose proof (dig_below p 53 ltac:(lia) Hp). lia.
Qed.

Lemma cm_val : forall p k, ce p k <= k -> Z.pos (cm p k) = Z.pos p * 2 ^ (k - ce p k).
Proof. intros p k H. unfold cm. apply Z2Pos.id. pose proof (Z.pow_pos_nonneg 2 (k - ce p k)). nia. Qed.

Lemma cm_sv : forall p k, ce p k <= k -> sv (Z.pos (cm p k)) (ce p k) (Z.pos p) k.
Proof.
  intros p k H. apply (sv_one _ _ _ _ (ce p k)); try lia. rewrite Z.sub_diag, Z.pow_0_r, Z.mul_1_r. apply cm_val. auto.
Qed.

Lemma cm_dig : forall p k, ce p k <= k -> dig (cm p k) + ce p k = dig p + k.
Proof. intros p k H. apply sv_dig. apply cm_sv. auto. Qed.

Lemma round_aux_exact : forall s m e p k, Z.pos p < 2 ^ 53 -> -1074 <= k <= 971 -> e <= fexp (dig m + e) ->
  sv (Z.pos m) e (Z.pos p) k -> binary_round_aux 53 1024 s (Z.pos m) e loc_Exact = S754_finite s (cm p k) (ce p k).
Proof.
  intros s m e p k Hp Hk He V. pose proof (ce_le p k Hp ltac:(lia)) as L. pose proof (sv_dig _ _ _ _ V) as D.
  assert (Ef : fexp (dig m + e) = ce p k) by (unfold ce; congruence). rewrite Ef in He.
  assert (Em : Z.pos m = Z.pos (cm p k) * 2 ^ (ce p k - e)).
  { rewrite cm_val by auto. rewrite <- Z.mul_assoc, <- Z.pow_add_r by lia.
    rewrite (sv_low _ _ _ _ V) by lia. f_equal. f_equal. lia. }
  unfold binary_round_aux, shr_fexp. cbn [shr_record_of_loc Zdigits2]. fold (dig m). rewrite Ef. fold (rec (Z.pos m)).
  rewrite Em, shr_exact by lia. cbn [shr_m loc_of_shr_record rec round_nearest_even Zdigits2].
  replace (e + (ce p k - e)) with (ce p k) by lia. fold (dig (cm p k)). rewrite (cm_dig p k L).
  fold (ce p k). rewrite Z.sub_diag. cbn [shr shr_m shr_record_of_loc].
  destruct (Z.leb_spec (ce p k) (1024 - 53)); [reflexivity|lia].
Qed.

Lemma round_exact : forall s m e p k, Z.pos p < 2 ^ 53 -> -1074 <= k <= 971 ->
  sv (Z.pos m) e (Z.pos p) k -> binary_round 53 1024 s m e = S754_finite s (cm p k) (ce p k).
Proof.
  intros s m e p k Hp Hk V. unfold binary_round, shl_align. fold (dig m). pose proof (sv_dig _ _ _ _ V) as D.
  destruct (fexp (dig m + e) - e) as [|d|d] eqn:E.
  - apply round_aux_exact; auto. lia.
  - apply round_aux_exact; auto. lia.
  - assert (V2 : sv (Z.pos (shift_pos d m)) (fexp (dig m + e)) (Z.pos m) e).
    { rewrite shift_pos_mul. replace (fexp (dig m + e)) with (e - Z.pos d) by lia. apply sv_shift. lia. }
    apply round_aux_exact; auto.
    + rewrite (sv_dig _ _ _ _ V2). lia.
    + eapply sv_trans; eauto.
Qed.

(** ** Floats that stand for a number *)
Definition fl (a k : Z) : spec_float :=
  match a with Z0 => S754_zero false | Z.pos p => S754_finite false (cm p k) (ce p k) | Z.neg p => S754_finite true (cm p k) (ce p k) end.

Lemma normalize_exact : forall n e a k, fits a k -> sv n e a k -> binary_normalize 53 1024 n e false = fl a k.
Proof.
  intros n e a k [Ha Hk] V. pose proof (sv_sign _ _ _ _ V) as S. unfold binary_normalize.
  destruct n as [|n|n], a as [|a|a]; try discriminate; cbn [fl].
  - reflexivity.
  - apply round_exact; auto.
  - apply round_exact; auto. apply sv_opp in V. exact V.
Qed.

Definition of_sign (s : bool) (m : positive) : Z := if s then Z.neg m else Z.pos m.
Lemma exactly_finite : forall s m e a k, exactly (S754_finite s m e) a k <-> bounded 53 1024 m e = true /\ sv (of_sign s m) e a k.
Proof.
  intros s m e a k. unfold exactly. cbn [valid_binary]. fold (of_sign s m). split; intros [A B]; split; auto.
  - apply (sv_one _ _ _ _ (Z.min e k)); auto; lia.
  - apply B; lia.
Qed.

Lemma bounded_iff : forall m e, bounded 53 1024 m e = true <-> fexp (dig m + e) = e /\ e <= 971.
Proof.
  intros m e. unfold bounded, canonical_mantissa. fold (dig m). rewrite andb_true_iff, <- Zeq_is_eq_bool, <- Zle_is_le_bool. reflexivity.
Qed.

Lemma fl_exactly : forall a k, fits a k -> exactly (fl a k) a k.
Proof.
  intros a k [Ha Hk]. destruct a as [|p|p]; cbn [fl]; [reflexivity| |]; pose proof (ce_le p k Ha ltac:(lia)) as L;
    apply exactly_finite; (split; [apply bounded_iff; split; [rewrite cm_dig; auto|lia]|]); cbn [of_sign].
  - apply cm_sv. auto.
  - apply (sv_opp (Z.pos (cm p k))) with (a := Z.pos p). apply cm_sv. auto.
Qed.

(** ** Operations *)
Lemma align : forall m e ez, ez <= e -> Z.pos (fst (shl_align m e ez)) = Z.pos m * 2 ^ (e - ez).
Proof.
  intros m e ez H. unfold shl_align. destruct (ez - e) as [|d|d] eqn:E; cbn [fst].
  - replace (e - ez) with 0 by lia. rewrite Z.pow_0_r. lia.
  - lia.
  - rewrite shift_pos_mul. f_equal. f_equal. lia.
Qed.

Lemma cond_sign : forall s m, cond_Zopp s (Z.pos m) = of_sign s m.
Proof. destruct s; reflexivity. Qed.

Lemma align_sign : forall s m e ez, ez <= e -> of_sign s (fst (shl_align m e ez)) = of_sign s m * 2 ^ (e - ez).
Proof. intros s m e ez H. pose proof (align m e ez H) as A. destruct s; cbn [of_sign]; lia. Qed.

Lemma sv_add : forall m e a m' e' b k, sv m e a k -> sv m' e' b k ->
  let ez := Z.min e e' in sv (m * 2 ^ (e - ez) + m' * 2 ^ (e' - ez)) ez (a + b) k.
Proof.
  intros m e a m' e' b k A B ez. set (j := Z.min ez k). apply (sv_one _ _ _ _ j); try lia.
  rewrite !Z.mul_add_distr_r, <- !Z.mul_assoc, <- !Z.pow_add_r by lia.
  replace (e - ez + (ez - j)) with (e - j) by lia. replace (e' - ez + (ez - j)) with (e' - j) by lia.
  rewrite (A j), (B j) by lia. reflexivity.
Qed.

Lemma exact_zero : forall s a k, exactly (S754_zero s) a k -> a = 0.
Proof. auto. Qed.

Theorem add_exact : forall x y a b k, exactly x a k -> exactly y b k -> fits (a + b) k -> exactly (f_add x y) (a + b) k.
Proof.
  intros x y a b k X Y Ft. unfold f_add, SFadd.
  destruct x as [sx|sx| |sx mx ex]; try contradiction; destruct y as [sy|sy| |sy my ey]; try contradiction.
  - apply exact_zero in X. apply exact_zero in Y. subst. destruct (Bool.eqb sx sy); reflexivity.
  - apply exact_zero in X. subst. exact Y.
  - apply exact_zero in Y. subst. rewrite Z.add_0_r. exact X.
  - apply exactly_finite in X. apply exactly_finite in Y. destruct X as [_ X], Y as [_ Y].
    rewrite !cond_sign, !align_sign by lia. rewrite (normalize_exact _ _ (a + b) k Ft); [apply fl_exactly; auto|].
    apply sv_add; auto.
Qed.

Theorem sub_exact : forall x y a b k, exactly x a k -> exactly y b k -> fits (a - b) k -> exactly (f_sub x y) (a - b) k.
Proof.
  intros x y a b k X Y Ft. unfold f_sub, SFsub.
  destruct x as [sx|sx| |sx mx ex]; try contradiction; destruct y as [sy|sy| |sy my ey]; try contradiction.
  - apply exact_zero in X. apply exact_zero in Y. subst. destruct (Bool.eqb sx (negb sy)); reflexivity.
  - apply exact_zero in X. subst. apply exactly_finite in Y. apply exactly_finite. destruct Y as [Y1 Y2]. split; auto.
    apply sv_opp in Y2. destruct sy; exact Y2.
  - apply exact_zero in Y. subst. rewrite Z.sub_0_r. exact X.
  - apply exactly_finite in X. apply exactly_finite in Y. destruct X as [_ X], Y as [_ Y].
    rewrite !cond_sign, !align_sign by lia. rewrite (normalize_exact _ _ (a - b) k Ft); [apply fl_exactly; auto|].
    apply sv_opp in Y. pose proof (sv_add _ _ _ _ _ _ _ X Y) as V. cbv zeta in V. rewrite <- Z.add_opp_r, <- Z.mul_opp_l in *. exact V.
Qed.

Lemma of_sign_mul : forall s s' m m', of_sign s m * of_sign s' m' = of_sign (xorb s s') (m * m').
Proof. intros [] [] m m'; reflexivity. Qed.

Lemma round_aux_sign : forall s m e a k, fits a k -> e <= fexp (dig m + e) -> sv (of_sign s m) e a k ->
  exactly (binary_round_aux 53 1024 s (Z.pos m) e loc_Exact) a k.
Proof.
  intros s m e a k Ft He V. destruct Ft as [Ha Hk].
  assert (exists p, a = of_sign s p /\ sv (Z.pos m) e (Z.pos p) k) as (p & -> & V').
  { pose proof (sv_sign _ _ _ _ V) as S. destruct s, a as [|p|p]; try discriminate; exists p; split; auto.
    apply sv_opp in V. exact V. }
  rewrite (round_aux_exact s m e p k); auto; [|destruct s; exact Ha].
  pose proof (fl_exactly (of_sign s p) k (conj Ha Hk)) as Q. destruct s; exact Q.
Qed.

Theorem mul_exact : forall x y a b k l, exactly x a k -> exactly y b l -> fits (a * b) (k + l) -> exactly (f_mul x y) (a * b) (k + l).
Proof.
  intros x y a b k l X Y Ft. unfold f_mul, SFmul.
  destruct x as [sx|sx| |sx mx ex]; try contradiction; destruct y as [sy|sy| |sy my ey]; try contradiction.
  - apply exact_zero in X. subst. reflexivity.
  - apply exact_zero in X. subst. reflexivity.
  - apply exact_zero in Y. subst. cbn. lia.
  - apply exactly_finite in X. apply exactly_finite in Y. destruct X as [X1 X2], Y as [Y1 Y2].
    apply round_aux_sign; auto.
    + apply bounded_iff in X1. apply bounded_iff in Y1. destruct X1 as [X1 _], Y1 as [Y1 _].
      pose proof (dig_mul mx my). pose proof (dig_pos mx). pose proof (dig_pos my).
      unfold SpecFloat.fexp, emin in *. lia.
    + rewrite <- of_sign_mul. apply sv_mul; auto.
Qed.

Theorem div_exact : forall x y a b k l, exactly x (a * b) (k + l) -> exactly y b l -> b <> 0 -> fits a k -> exactly (f_div x y) a k.
Proof.
  intros x y a b k l X Y Hb Ft. unfold f_div, SFdiv.
  destruct y as [sy|sy| |sy my ey]; try contradiction.
  destruct x as [sx|sx| |sx mx ex]; try contradiction.
  - apply exact_zero in X. assert (a = 0) as -> by nia. reflexivity.
  - apply exactly_finite in X. apply exactly_finite in Y. destruct X as [_ X], Y as [_ Y].
    unfold SFdiv_core_binary. cbn [Zdigits2]. fold (dig mx) (dig my).
    set (D := dig mx + ex - (dig my + ey)). set (e' := Z.min (fexp D) (ex - ey)). set (s := ex - ey - e').
    assert (Hs : 0 <= s) by lia.
    assert (Em : (match s with Z0 => Z.pos mx | Z.pos _ => Z.shiftl (Z.pos mx) s | Z.neg _ => 0 end) = Z.pos mx * 2 ^ s).
    { destruct s eqn:Es; [rewrite Z.pow_0_r; lia| |lia]. rewrite <- Es. apply Z.shiftl_mul_pow2. lia. }
    rewrite Em. clear Em.
    (* signs apart *)
    set (sg := xorb sx sy).
    assert (A : exists p q, a = of_sign sg p /\ Z.abs b = Z.pos q /\ sv (Z.pos mx) ex (Z.pos (p * q)) (k + l) /\ sv (Z.pos my) ey (Z.pos q) l).
    { pose proof (sv_sign _ _ _ _ X) as SX. pose proof (sv_sign _ _ _ _ Y) as SY. rewrite Z.sgn_mul in SX.
      destruct b as [|q|q]; [congruence| |]; (destruct a as [|p|p]; [destruct sx; discriminate| |]);
      destruct sx, sy; try discriminate; exists p, q; subst sg; (split; [reflexivity|]); (split; [reflexivity|]);
      (split; [try exact X; apply sv_opp in X; exact X|try exact Y; apply sv_opp in Y; exact Y]). }
    destruct A as (p & q & -> & _ & X' & Y'). clear X Y Hb. destruct Ft as [Ha Hk].
    assert (Hp : Z.pos p < 2 ^ 53) by (destruct sg; exact Ha).
    assert (DL : D <= dig p + k).
    { subst D. rewrite (sv_dig _ _ _ _ X'), (sv_dig _ _ _ _ Y'). pose proof (dig_mul p q). lia. }
    pose proof (ce_le p k Hp ltac:(lia)) as CL.
    assert (FM : fexp D <= ce p k) by (unfold ce, SpecFloat.fexp; lia).
    assert (Eq : Z.pos mx * 2 ^ s = Z.pos p * 2 ^ (k - e') * Z.pos my).
    { (* mx 2^ex = p q 2^(k+l), my 2^ey = q 2^l *)
      set (j := Z.min ey l). set (i := Z.min ex (Z.min (k + l) (e' + j))).
      pose proof (X' i ltac:(lia) ltac:(lia)) as E1. pose proof (Y' j ltac:(lia) ltac:(lia)) as E2.
      apply (Z.mul_reg_r _ _ (2 ^ (ey - j + (e' + j - i)))); [apply Z.pow_nonzero; lia|].
      rewrite <- Z.mul_assoc, <- Z.pow_add_r by lia. replace (s + (ey - j + (e' + j - i))) with (ex - i) by lia. rewrite E1.
      rewrite Pos2Z.inj_mul. rewrite (Z.pow_add_r 2 (ey - j)) by lia.
      replace (Z.pos p * 2 ^ (k - e') * Z.pos my * (2 ^ (ey - j) * 2 ^ (e' + j - i)))
        with (Z.pos p * 2 ^ (k - e') * (Z.pos my * 2 ^ (ey - j)) * 2 ^ (e' + j - i)) by ring.
      rewrite E2. replace (Z.pos p * 2 ^ (k - e') * (Z.pos q * 2 ^ (l - j)) * 2 ^ (e' + j - i))
        with (Z.pos p * Z.pos q * (2 ^ (k - e') * 2 ^ (l - j) * 2 ^ (e' + j - i))) by ring.
      rewrite <- !Z.pow_add_r by lia. f_equal. f_equal. lia. }
    rewrite Eq.
    pose proof (Z.div_mod (Z.pos p * 2 ^ (k - e') * Z.pos my) (Z.pos my) ltac:(lia)) as DM.
    destruct (Z.div_eucl (Z.pos p * 2 ^ (k - e') * Z.pos my) (Z.pos my)) as [qu r] eqn:DE.
    assert (qu = Z.pos p * 2 ^ (k - e')) as ->.
    { change qu with (fst (qu, r)). rewrite <- DE. change (Z.pos p * 2 ^ (k - e') * Z.pos my / Z.pos my = Z.pos p * 2 ^ (k - e')).
      apply Z.div_mul. lia. }
    assert (r = 0) as ->.
    { change r with (snd (Z.pos p * 2 ^ (k - e'), r)). rewrite <- DE.
      change (Z.pos p * 2 ^ (k - e') * Z.pos my mod Z.pos my = 0). apply Z.mod_mul. lia. }
    assert (NL : new_location (Z.pos my) 0 = loc_Exact) by (unfold new_location; destruct (Z.even (Z.pos my)); reflexivity).
    rewrite NL. assert (P0 : 0 < Z.pos p * 2 ^ (k - e')) by (pose proof (Z.pow_pos_nonneg 2 (k - e')); nia).
    destruct (Z.pos p * 2 ^ (k - e')) as [|m|m] eqn:Em; try lia.
    assert (V : sv (Z.pos m) e' (Z.pos p) k).
    { apply (sv_one _ _ _ _ e'); try lia. rewrite Z.sub_diag, Z.pow_0_r, Z.mul_1_r. auto. }
    apply round_aux_sign; [split; auto| |].
    + rewrite (sv_dig _ _ _ _ V). fold (ce p k). lia.
    + destruct sg; [apply sv_opp in V; exact V|exact V].
Qed.

Lemma pos_compare : forall m e p m' e' q k, bounded 53 1024 m e = true -> bounded 53 1024 m' e' = true ->
  sv (Z.pos m) e (Z.pos p) k -> sv (Z.pos m') e' (Z.pos q) k ->
  match e ?= e' with Lt => Lt | Gt => Gt | Eq => Pos.compare_cont Eq m m' end = (Z.pos p ?= Z.pos q).
Proof.
  intros m e p m' e' q k B B' V V'. apply bounded_iff in B. apply bounded_iff in B'. destruct B as [B _], B' as [B' _].
  rewrite (sv_dig _ _ _ _ V) in B. rewrite (sv_dig _ _ _ _ V') in B'.
  assert (L : forall p q, fexp (dig p + k) < fexp (dig q + k) -> Z.pos p < Z.pos q).
  { clear. intros p q H. destruct (Z.le_gt_cases (Z.pos q) (Z.pos p)) as [G|G]; auto. apply dig_le in G.
    unfold SpecFloat.fexp in H. lia. }
  destruct (Z.compare_spec e e') as [E|E|E].
  - rewrite <- E in V'. specialize (V (Z.min e k) ltac:(lia) ltac:(lia)). specialize (V' (Z.min e k) ltac:(lia) ltac:(lia)).
    change (Pos.compare_cont Eq m m') with (Z.pos m ?= Z.pos m').
    rewrite (Zmult_compare_compat_r (Z.pos m) (Z.pos m') (2 ^ (e - Z.min e k))) by (apply Z.lt_gt, Z.pow_pos_nonneg; lia).
    rewrite V, V'. symmetry. apply Zmult_compare_compat_r. apply Z.lt_gt, Z.pow_pos_nonneg; lia.
  - symmetry. apply Z.compare_lt_iff. apply L. lia.
  - symmetry. apply Z.compare_gt_iff. apply L. lia.
Qed.

Theorem cmp_exact : forall x y a b k, exactly x a k -> exactly y b k -> f_cmp x y = Some (a ?= b).
Proof.
  intros x y a b k X Y. unfold f_cmp, SFcompare.
  destruct x as [sx|sx| |sx mx ex]; try contradiction; destruct y as [sy|sy| |sy my ey]; try contradiction.
  - apply exact_zero in X. apply exact_zero in Y. subst. reflexivity.
  - apply exact_zero in X. subst. apply exactly_finite in Y. destruct Y as [_ Y]. apply sv_sign in Y.
    destruct sy, b; try discriminate; reflexivity.
  - apply exact_zero in Y. subst. apply exactly_finite in X. destruct X as [_ X]. apply sv_sign in X.
    destruct sx, a; try discriminate; reflexivity.
  - apply exactly_finite in X. apply exactly_finite in Y. destruct X as [BX X], Y as [BY Y].
    pose proof (sv_sign _ _ _ _ X) as SX. pose proof (sv_sign _ _ _ _ Y) as SY.
    destruct sx, a as [|a|a]; try discriminate; destruct sy, b as [|b|b]; try discriminate; try reflexivity; f_equal.
    + apply sv_opp in X. apply sv_opp in Y. pose proof (pos_compare _ _ _ _ _ _ _ BX BY X Y) as C.
      change (Z.neg a ?= Z.neg b) with (CompOpp (Z.pos a ?= Z.pos b)). rewrite <- C. destruct (ex ?= ey); reflexivity.
    + exact (pos_compare _ _ _ _ _ _ _ BX BY X Y).
Qed.

Theorem sqrt_exact : forall x a k, exactly x (a * a) (2 * k) -> 0 <= a -> fits a k -> exactly (f_sqrt x) a k.
Proof.
  intros x a k X Ha Ft. unfold f_sqrt, SFsqrt. destruct x as [sx|sx| |sx mx ex]; try contradiction.
  - apply exact_zero in X. assert (a = 0) as -> by nia. reflexivity.
  - apply exactly_finite in X. destruct X as [_ X]. pose proof (sv_sign _ _ _ _ X) as SX.
    destruct a as [|p|p]; [destruct sx; discriminate| |lia]. destruct sx; [discriminate|]. cbn [of_sign] in X.
    change (Z.pos p * Z.pos p) with (Z.pos (p * p)) in X. destruct Ft as [Hp Hk]. change (Z.abs (Z.pos p)) with (Z.pos p) in Hp.
    unfold SFsqrt_core_binary. cbn [Zdigits2]. fold (dig mx).
    pose proof (sv_dig _ _ _ _ X) as D. pose proof (dig_mul p p) as DM.
    assert (HD : Z.div2 (dig mx + ex + 1) = dig p + k).
    { rewrite Z.div2_div. assert (dig mx + ex + 1 = 2 * (dig p + k) \/ dig mx + ex + 1 = 2 * (dig p + k) + 1) as [E|E] by lia; rewrite E.
      - rewrite Z.mul_comm. apply Z.div_mul. lia.
      - rewrite Z.mul_comm, Z.div_add_l by lia. cbn. lia. }
    rewrite HD. fold (ce p k). set (e' := Z.min (ce p k) (Z.div2 ex)). set (s := ex - 2 * e').
    pose proof (ce_le p k Hp ltac:(lia)) as CL.
    assert (Hs : 0 <= s). { subst s. assert (2 * Z.div2 ex <= ex) by (rewrite Z.div2_div; apply Z.mul_div_le; lia). lia. }
    assert (Em : (match s with Z0 => Z.pos mx | Z.pos _ => Z.shiftl (Z.pos mx) s | Z.neg _ => 0 end) = Z.pos mx * 2 ^ s).
    { destruct s eqn:Es; [rewrite Z.pow_0_r; lia| |lia]. rewrite <- Es. apply Z.shiftl_mul_pow2. lia. }
    assert (Eq : Z.pos mx * 2 ^ s = (Z.pos p * 2 ^ (k - e')) * (Z.pos p * 2 ^ (k - e'))).
    { rewrite Z.mul_shuffle1, <- Z.pow_add_r by lia. change (Z.pos p * Z.pos p) with (Z.pos (p * p)).
      replace (k - e' + (k - e')) with (2 * k - 2 * e') by lia. unfold s. apply X; lia. }
    assert (P0 : 0 < Z.pos p * 2 ^ (k - e')) by (pose proof (Z.pow_pos_nonneg 2 (k - e')); nia).
    assert (SR : Z.sqrtrem (Z.pos mx * 2 ^ s) = (Z.pos p * 2 ^ (k - e'), 0)).
    { rewrite Eq. set (q := Z.pos p * 2 ^ (k - e')) in *. pose proof (Z.sqrtrem_spec (q * q) ltac:(nia)) as SS.
      destruct (Z.sqrtrem (q * q)) as [t r]. assert (t = q) by nia. subst t. f_equal. nia. }
    rewrite <- Em in SR. clear Em. destruct s as [|s0|s0] eqn:Es; [| |lia]; rewrite SR; cbn [Zeq_bool Z.compare];
      destruct (Z.pos p * 2 ^ (k - e')) as [|m|m] eqn:Epm; try lia;
      (assert (V : sv (Z.pos m) e' (Z.pos p) k) by (apply (sv_one _ _ _ _ e'); try lia; rewrite Z.sub_diag, Z.pow_0_r, Z.mul_1_r; auto));
      (apply (round_aux_sign false); [split; auto|rewrite (sv_dig _ _ _ _ V); fold (ce p k); lia|exact V]).
Qed.

Lemma of_Z_exact : forall n, small n -> exactly (f_of_Z n) n 0.
Proof.
  intros n H. unfold f_of_Z. assert (Ft : fits n 0) by (split; [exact H|lia]).
  rewrite (normalize_exact n 0 n 0 Ft (sv_refl n 0)). apply fl_exactly. exact Ft.
Qed.
