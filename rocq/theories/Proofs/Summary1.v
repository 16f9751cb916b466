(** Final forms of the theorems about table commands. *)
From Coq Require Import String List Bool Arith Lia NArith ZArith Permutation.
From Verif Require Import Model.Base Model.Value Model.TableCrate Model.RowPar Model.TableOps Model.Get
  Spec.SortSpec Spec.TableSpec Spec.ParSpec Spec.ColSpec Spec.OpsSpec
  Proofs.ListLemmas Proofs.TableBasics Proofs.ColLemmas Proofs.RowParProofs Proofs.FilterProofs
  Proofs.SortProofs Proofs.LenProofs.
Import ListNotations.
Set Implicit Arguments.

(** ** counts *)

Lemma num_unit_pos : (0 < num_unit)%Z.
Proof. unfold num_unit. apply Z.pow_pos_nonneg; lia. Qed.

Lemma usize_u128 : (Z.of_N usize_max < 2 ^ 128)%Z.
Proof. vm_compute. reflexivity. Qed.

Opaque num_unit.
Theorem count_spec : forall v n, cnv_num_to_usize v = Ok n <-> count_is v n.
Proof.
  intros v n. unfold count_is. pose proof num_unit_pos as HP. pose proof usize_u128 as HU. split.
  - destruct v as [|b|z|s|t|t i c|d k l]; cbn [cnv_num_to_usize]; try discriminate.
    destruct ((z mod num_unit =? 0)%Z && (0 <=? z)%Z && (z / num_unit <? 2 ^ 128)%Z) eqn:E; [|discriminate].
    apply andb_prop in E. destruct E as [E E3]. apply andb_prop in E. destruct E as [E1 E2].
    destruct (N.leb_spec (Z.to_N (z / num_unit)) usize_max); [|discriminate]. intros [= <-].
    apply Z.eqb_eq in E1. apply Z.leb_le in E2. split; auto. f_equal.
    assert (0 <= z / num_unit)%Z by (apply Z.div_pos; lia).
    rewrite Z2N.id by auto. pose proof (Z.div_mod z num_unit). lia.
  - intros [-> Hn]. cbn [cnv_num_to_usize]. rewrite Z_mod_mult, Z.div_mul by lia. rewrite N2Z.id.
    assert (0 <= Z.of_N n * num_unit)%Z by (apply Z.mul_nonneg_nonneg; lia).
    rewrite Z.eqb_refl. rewrite (proj2 (Z.leb_le _ _) H).
    rewrite (proj2 (Z.ltb_lt (Z.of_N n) (2 ^ 128))); [|lia].
    cbn [andb]. rewrite (proj2 (N.leb_le _ _) Hn). reflexivity.
Qed.
Transparent num_unit.

Lemma count_no_panic : forall v, cnv_num_to_usize v <> Panic.
Proof.
  intros []; cbn [cnv_num_to_usize]; try discriminate.
  destruct (_ && _); try discriminate. destruct (_ <=? _)%N; discriminate.
Qed.

(** ** take and skip *)

Theorem take_table_correct : forall owned v (t : table), rectangular t ->
  match take_table owned v t with
  | Ok t' => exists n, count_is v n /\ t' = header t ++ firstn (N.to_nat n) (data t)
  | Err _ => forall n, ~ count_is v n
  | Panic => False
  end.
Proof.
  intros owned v t HR. destruct (cnv_num_to_usize v) as [n|e|] eqn:E.
  - rewrite (@take_table_ok owned v n t HR E). exists n. split; auto. now apply count_spec.
  - unfold take_table. rewrite E. cbn. intros n Hn. apply count_spec in Hn. congruence.
  - destruct (count_no_panic _ E).
Qed.

Theorem skip_table_correct : forall checked owned v (t : table), rectangular t ->
  ~ count_is v usize_max \/ owned = true ->
  match skip_table checked owned v t with
  | Ok t' => exists n, count_is v n /\ t' = header t ++ skipn (N.to_nat n) (data t)
  | Err _ => forall n, ~ count_is v n
  | Panic => False
  end.
Proof.
  intros checked owned v t HR HM. destruct (cnv_num_to_usize v) as [n|e|] eqn:E.
  - pose proof E as En. apply count_spec in En. destruct owned.
    + unfold skip_table. rewrite E. cbn [rbind]. exists n. split; auto. apply skip_owned_eq.
    + destruct HM as [HM|HM]; [|discriminate].
      rewrite (@skip_table_ok checked false v n t HR E).
      * exists n. split; auto.
      * destruct En as [_ Hle]. destruct (N.eq_dec n usize_max) as [->|]; [|lia].
        exfalso. apply HM. now apply count_spec.
  - unfold skip_table. rewrite E. cbn. intros n Hn. apply count_spec in Hn. congruence.
  - destruct (count_no_panic _ E).
Qed.

Theorem take_skip_split : forall checked o1 o2 v (t a b : table), rectangular t ->
  ~ count_is v usize_max \/ o2 = true ->
  take_table o1 v t = Ok a -> skip_table checked o2 v t = Ok b ->
  header a = header t /\ header b = header t /\ data a ++ data b = data t.
Proof.
  intros checked o1 o2 v t a b HR HM Ha Hb.
  pose proof (@take_table_correct o1 v t HR) as KA. rewrite Ha in KA. destruct KA as (n & Hn & ->).
  pose proof (@skip_table_correct checked o2 v t HR HM) as KB. rewrite Hb in KB. destruct KB as (m & Hm & ->).
  assert (n = m) as <-.
  { apply count_spec in Hn, Hm. congruence. }
  destruct t as [|h d]; cbn; [destruct (N.to_nat n); auto|]. split; auto. split; auto. apply firstn_skipn.
Qed.

Theorem take_skip_str : forall v (s : str),
  match take_str v s, skip_str v s with
  | Ok a, Ok b => exists n, count_is v n /\ a = firstn (N.to_nat n) s /\ b = skipn (N.to_nat n) s /\ a ++ b = s
  | Err _, Err _ => forall n, ~ count_is v n
  | _, _ => False
  end.
Proof.
  intros v s. unfold take_str, skip_str. destruct (cnv_num_to_usize v) as [n|e|] eqn:E; cbn [rbind].
  - exists n. rewrite takeN_firstn, skipN_skipn. split; [now apply count_spec|]. split; auto. split; auto. apply firstn_skipn.
  - intros n Hn. apply count_spec in Hn. congruence.
  - destruct (count_no_panic _ E).
Qed.

(** ** filter by column *)

Lemma judgement_eq : forall name exp pred (t : table) j i e,
  column_named t name j -> cell t i j = Some e ->
  col_judgement name exp pred t i = judge exp pred e.
Proof.
  intros name exp pred t j i e Hj He. unfold col_judgement. rewrite (proj2 (col_idx_iff t name j) Hj). cbn [rbind].
  unfold entry_at, get_cell. unfold cell in He. rewrite He. cbn [rbind]. unfold judge, same_type, cnv_value.
  destruct (ty_eqb _ _); reflexivity.
Qed.

Theorem filter_col_correct : forall name exp pred sched owned (t : table) j,
  rectangular t -> complete_schedule (length t) sched -> column_named t name j ->
  let verdict := fun i => match cell t i j with Some e => judge exp pred e | None => Panic end in
  match filter_table_col name exp pred sched owned t with
  | Ok t' => (forall i, 1 <= i < length t -> is_bool (verdict i)) /\
             t' = header t ++ selected (fun i => true_val (verdict i)) t
  | Err e => exists i, 1 <= i < length t /\ pred_error (verdict i) e
  | Panic => exists i v, 1 <= i < length t /\ pred v = Panic
  end.
Proof.
  intros name exp pred sched owned t j HR HS Hj verdict.
  assert (HC : forall i, i < length t -> exists e, cell t i j = Some e).
  { intros i Hi. unfold cell. destruct (nth_error t i) as [r|] eqn:E; [|apply nth_error_None in E; lia].
    destruct (nth_error r j) eqn:E2; eauto. apply nth_error_None in E2.
    pose proof (column_named_width Hj). rewrite (rectangular_width HR r) in E2; [lia|]. eapply nth_error_In; eauto. }
  assert (HV : forall i, i < length t -> col_judgement name exp pred t i = verdict i).
  { intros i Hi. destruct (HC i Hi) as (e & He). unfold verdict. rewrite He. now apply judgement_eq with j. }
  pose proof (@filter_table_col_outcome name exp pred sched owned t HR HS) as K.
  destruct (filter_table_col name exp pred sched owned t) as [t'|e|].
  - destruct K as [K1 ->]. split.
    + intros i Hi. rewrite <- HV by lia. auto.
    + f_equal. unfold selected. f_equal. apply filter_ext_in. intros [i r] Hir. cbn.
      unfold indexed in Hir. apply in_combine_l in Hir. apply in_seq in Hir. rewrite HV; auto.
      destruct t; cbn in *; lia.
  - destruct K as (i & Hi & K). exists i. split; auto. rewrite <- HV by lia. exact K.
  - destruct K as (i & Hi & K). rewrite HV in K by lia. destruct (HC i ltac:(lia)) as (e & He).
    unfold verdict in K. rewrite He in K. unfold judge in K. destruct (same_type _ _); [|discriminate]. eauto.
Qed.

Theorem filter_col_missing : forall name exp pred sched owned (t : table),
  rectangular t -> complete_schedule (length t) sched -> no_column_named t name ->
  match filter_table_col name exp pred sched owned t with
  | Ok t' => data t = [] /\ t' = t
  | Err _ => data t <> []
  | Panic => False
  end.
Proof.
  intros name exp pred sched owned t HR HS HN.
  assert (HJ : exists e, forall i, col_judgement name exp pred t i = Err e).
  { pose proof (col_idx_spec t name) as K. destruct (col_idx t name) as [c|e|] eqn:E.
    - exfalso. eapply HN; eauto.
    - exists e. intros i. unfold col_judgement. rewrite E. reflexivity.
    - destruct K. }
  destruct HJ as (e0 & HJ).
  pose proof (@filter_table_col_outcome name exp pred sched owned t HR HS) as K.
  destruct (filter_table_col name exp pred sched owned t) as [t'|e|].
  - destruct K as [K1 ->].
    assert (data t = []) as HD.
    { destruct t as [|h d]; auto. destruct d as [|r d]; auto. exfalso.
      destruct (K1 1) as (b & Hb); [cbn; lia|]. rewrite HJ in Hb. discriminate. }
    split; auto. unfold selected, indexed. rewrite HD. cbn. rewrite app_nil_r. destruct t as [|h d]; auto. cbn in HD. now subst.
  - destruct K as (i & Hi & _). destruct t as [|h [|r d]]; cbn in *; try lia; discriminate.
  - destruct K as (i & _ & K). rewrite HJ in K. discriminate.
Qed.

(** ** sort *)

Theorem sort_table_full : forall so, sort_contract so -> forall names (t : table),
  match sort_table so names t with
  | Ok t' => exists cols, Forall2 (column_named t) names cols /\
       header t' = header t /\
       is_stable_sort (lex_cmp (rev (map by_column cols))) (data t) (data t')
  | Err e => exists n, In n names /\ no_column_named t n
  | Panic => False
  end.
Proof.
  intros so HS names t. pose proof (@sort_table_correct so HS names t) as K.
  destruct (sort_table so names t) as [t'|e|]; auto.
  - destruct K as (cols & Hc & Hh & Hs). exists cols.
    pose proof (resolve_indices_spec names t) as R. rewrite Hc in R. split; auto. split; auto.
    assert (E : forall (cs : list nat) a b, lex_cmp (map col_cmp cs) a b = lex_cmp (map by_column cs) a b).
    { induction cs as [|c cs IH]; intros a b; cbn; auto.
      assert (col_cmp c a b = by_column c a b) as -> by apply cmp_table_entries_key. now rewrite IH. }
    rewrite <- map_rev in *. destruct Hs as (P & S & F). split; auto. split.
    + eapply Sorted.StronglySorted_ind with (P := fun l => Sorted.StronglySorted _ l); [constructor| |exact S].
      intros a l _ IH Hf. constructor; auto. eapply Forall_impl; [|exact Hf]. cbn. intros b. now rewrite E.
    + intros x Hx. specialize (F x Hx).
      assert (EF : forall l, filter (eqv (lex_cmp (map by_column (rev cols))) x) l = filter (eqv (lex_cmp (map col_cmp (rev cols))) x) l).
      { intros l. apply filter_ext. intros b. unfold eqv. now rewrite E. }
      now rewrite !EF.
  - destruct K as (n & Hn & K). exists n. split; auto. eapply col_idx_err; eauto.
Qed.
