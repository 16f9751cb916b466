From Coq Require Import String List Bool Arith Lia NArith ZArith Permutation.
From Verif Require Import Model.Base Model.Value Model.TableCrate Model.RowPar Model.TableOps
  Spec.SortSpec Spec.TableSpec Spec.ParSpec Spec.ColSpec Spec.OpsSpec
  Proofs.ListLemmas Proofs.TableBasics Proofs.RowParProofs Proofs.FilterProofs
  Proofs.SortProofs Proofs.SortByProofs Proofs.Summary1.
Import ListNotations.
Set Implicit Arguments.

Theorem take_sharing : forall v (t : table), rectangular t -> take_table true v t = take_table false v t.
Proof.
  intros v t HR. unfold take_table. destruct (cnv_num_to_usize v) as [n|e|]; cbn [rbind]; auto.
  f_equal. rewrite take_owned_eq. symmetry. now apply take_shared_eq.
Qed.

Theorem skip_sharing : forall c1 c2 v (t : table), rectangular t -> ~ count_is v usize_max ->
  skip_table c1 true v t = skip_table c2 false v t.
Proof.
  intros c1 c2 v t HR HN. unfold skip_table. destruct (cnv_num_to_usize v) as [n|e|] eqn:E; cbn [rbind]; auto.
  apply count_spec in E. destruct E as [E1 E2]. unfold usize_succ.
  destruct (N.ltb_spec n usize_max) as [L|L]; cbn [rbind].
  - f_equal. rewrite skip_owned_eq. symmetry. now apply skip_shared_eq.
  - exfalso. apply HN. assert (n = usize_max) as <- by lia. now split.
Qed.

Lemma retain_sharing : forall (t : table) keep, rectangular t -> retain_keep_rows true t keep = retain_keep_rows false t keep.
Proof.
  intros t keep HR. unfold retain_keep_rows. destruct (forallb _ keep); auto.
  destruct (length keep <? rows_len t); auto. f_equal. symmetry. apply table_from_rect.
  apply (@rectangular_sub _ _ HR). intros r. apply retain_from_in.
Qed.

Theorem filter_sharing : forall C ev (init : C) sched (t : table), rectangular t ->
  filter_table ev init sched true t = filter_table ev init sched false t.
Proof.
  intros C ev init sched t HR. unfold filter_table.
  destruct (filter_keep ev init sched t); cbn [rbind]; auto using retain_sharing.
Qed.

Theorem filter_col_sharing : forall name exp pred sched (t : table), rectangular t ->
  filter_table_col name exp pred sched true t = filter_table_col name exp pred sched false t.
Proof.
  intros name exp pred sched t HR. unfold filter_table_col.
  destruct (par_over_tablerows _ _ _ _); cbn [rbind]; auto using retain_sharing.
Qed.

Theorem sortby_sharing : forall C (so : sorter) (ev : C -> nat -> res value * C) init g sched cmp (t : table),
  sort_contract so -> rectangular t -> row_function ev init g -> complete_schedule (length t) sched ->
  sortby_table so ev init sched cmp true t = sortby_table so ev init sched cmp false t.
Proof.
  intros C so ev init g sched cmp t HS HR Hev HC. destruct t as [|h d].
  { unfold sortby_table, resolve_trow_expr_par. cbn.
    unfold complete_schedule in HC. cbn in HC. apply Permutation_sym, Permutation_nil in HC.
    apply map_eq_nil in HC. subst. cbn. auto. }
  pose proof (@resolve_keys_outcome C ev init g sched h d Hev HC) as H.
  unfold sortby_table. destruct (resolve_trow_expr_par ev init sched (h :: d)) as [l|e|]; cbn [rbind data]; auto.
  destruct H as (keys & -> & HK).
  assert (HL : length keys = length d).
  { apply (f_equal (@length _)) in HK. rewrite !map_length, seq_length in HK. exact HK. }
  cbn [length].
  destruct (sort_values so cmp (combine (seq 0 (S (length keys))) (VNil :: keys))) as [sorted|e|] eqn:EV; cbn [rbind]; auto.
  destruct (@reorder_result so true cmp h d keys sorted HS HR HL EV) as (_ & -> & _).
  destruct (@reorder_result so false cmp h d keys sorted HS HR HL EV) as (_ & -> & _). reflexivity.
Qed.
