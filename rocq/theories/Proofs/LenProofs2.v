From Coq Require Import String List Bool Arith Lia NArith ZArith.
From Verif Require Import Model.Base Model.Value Model.TableCrate Model.TableOps
  Spec.TableSpec Spec.OpsSpec Proofs.LenProofs Proofs.Summary1.
Import ListNotations.

Theorem len_correct : forall cols (t : table) (s : str),
  len_table cols t = num_of_Z (Z.of_nat (if cols then cols_len t else length (data t))) /\
  len_str s = num_of_Z (Z.of_nat (length s)).
Proof.
  intros cols t s. split; [|reflexivity]. unfold len_table. destruct cols; auto. do 2 f_equal.
  destruct t; cbn; auto. now rewrite Nat.sub_0_r.
Qed.

Theorem nth_str_full : forall v n s, count_is v n ->
  match nth_str v s with
  | Ok r => exists c, nth_error s (N.to_nat n) = Some c /\ r = [c]
  | Err _ => (N.of_nat (length s) <= n)%N
  | Panic => False
  end.
Proof. intros v n s H. apply nth_str_correct. now apply count_spec. Qed.

Theorem nth_table_full : forall checked v n expr (t : table),
  count_is v n -> n <> usize_max ->
  match nth_error (data t) (N.to_nat n) with
  | Some _ => nth_table checked v expr t = expr (1 + N.to_nat n)
  | None => exists e, nth_table checked v expr t = Err e
  end.
Proof.
  intros checked v n expr t H Hn. apply nth_table_correct; [now apply count_spec|]. destruct H. lia.
Qed.

Opaque num_unit.
Lemma u128_spec : forall v n, cnv_num_to_u128 v = Ok n <-> v = VNum (num_of_Z (Z.of_N n)) /\ (n < 2 ^ 128)%N.
Proof.
  intros v n. unfold num_of_Z. pose proof num_unit_pos as HP. split.
  - destruct v as [|b|z|s|t|t i c|d k l]; cbn [cnv_num_to_u128]; try discriminate.
    destruct ((z mod num_unit =? 0)%Z && (0 <=? z)%Z && (z / num_unit <? 2 ^ 128)%Z) eqn:E; [|discriminate].
    apply andb_prop in E. destruct E as [E E3]. apply andb_prop in E. destruct E as [E1 E2].
    intros [= <-]. apply Z.eqb_eq in E1. apply Z.leb_le in E2. apply Z.ltb_lt in E3.
    assert (0 <= z / num_unit)%Z by (apply Z.div_pos; lia). split.
    + rewrite Z2N.id by auto. f_equal. pose proof (Z.div_mod z num_unit). lia.
    + lia.
  - intros [-> Hn]. cbn [cnv_num_to_u128]. rewrite Z_mod_mult, Z.div_mul by lia. rewrite N2Z.id.
    assert (0 <= Z.of_N n * num_unit)%Z by (apply Z.mul_nonneg_nonneg; lia).
    rewrite Z.eqb_refl. rewrite (proj2 (Z.leb_le _ _) H).
    rewrite (proj2 (Z.ltb_lt (Z.of_N n) (2 ^ 128))); [|lia]. reflexivity.
Qed.

Lemma u128_no_panic : forall v, cnv_num_to_u128 v <> Panic.
Proof. intros []; cbn [cnv_num_to_u128]; try discriminate. destruct (_ && _); discriminate. Qed.

Theorem range_correct : forall a b t, range a b = Ok t ->
  exists from to, a = VNum (num_of_Z (Z.of_N from)) /\ b = VNum (num_of_Z (Z.of_N to)) /\
  header t = [[EObj (VStr (lit "i"))]] /\
  data t = map (fun k => [ENum (num_of_Z (Z.of_N from + Z.of_nat k))]) (seq 0 (N.to_nat to - N.to_nat from)) /\
  len_table false t = num_of_Z (Z.max 0 (Z.of_N to - Z.of_N from)).
Proof.
  intros a b t H. unfold range in H.
  destruct (cnv_num_to_u128 a) as [f|e|] eqn:Ea; cbn [rbind] in H; try discriminate.
  destruct (cnv_num_to_u128 b) as [g|e|] eqn:Eb; cbn [rbind] in H; try discriminate.
  injection H as <-. exists f, g. apply u128_spec in Ea, Eb. destruct Ea as [Ea _], Eb as [Eb _].
  destruct (table_range_correct f g) as [Hh Hd]. split; auto. split; auto. split; auto. split; auto.
  destruct (len_correct false (table_range f g) []) as [-> _]. rewrite Hd. rewrite map_length, seq_length.
  f_equal. lia.
Qed.

Theorem range_total : forall a b,
  match range a b with
  | Ok _ => True
  | Err _ => forall from to, a = VNum (num_of_Z (Z.of_N from)) -> b = VNum (num_of_Z (Z.of_N to)) ->
               (2 ^ 128 <= from \/ 2 ^ 128 <= to)%N
  | Panic => False
  end.
Proof.
  intros a b. unfold range.
  destruct (cnv_num_to_u128 a) as [f|e|] eqn:Ea; cbn [rbind].
  - destruct (cnv_num_to_u128 b) as [g|e|] eqn:Eb; cbn [rbind]; auto.
    + intros from to _ Hb. right. destruct (N.lt_ge_cases to (2 ^ 128)); auto.
      rewrite (proj2 (u128_spec b to)) in Eb; [discriminate|auto].
    + eapply u128_no_panic; eauto.
  - intros from to Ha _. left. destruct (N.lt_ge_cases from (2 ^ 128)); auto.
    rewrite (proj2 (u128_spec a from)) in Ea; [discriminate|auto].
  - eapply u128_no_panic; eauto.
Qed.
