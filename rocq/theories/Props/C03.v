(** C03: whether a table is shared or owned is not observable. *)
From Coq Require Import String List ZArith NArith.
From Verif Require Import Model.Base Model.Value Model.TableCrate Model.RowPar Model.TableOps
  Spec.SortSpec Spec.TableSpec Spec.ParSpec Spec.OpsSpec Proofs.SortProofs Proofs.ShareProofs Proofs.Samples.
Import ListNotations.

Theorem C03_take : forall v (t : table), rectangular t -> take_table true v t = take_table false v t.
Proof. exact take_sharing. Qed.
Print Assumptions C03_take.

(** Also whatever the overflow checks of the build. *)
Theorem C03_skip : forall c1 c2 v (t : table), rectangular t -> ~ count_is v usize_max ->
  skip_table c1 true v t = skip_table c2 false v t.
Proof. exact skip_sharing. Qed.
Print Assumptions C03_skip.

Theorem C03_filter : forall C ev (init : C) sched (t : table), rectangular t ->
  filter_table ev init sched true t = filter_table ev init sched false t.
Proof. exact filter_sharing. Qed.
Print Assumptions C03_filter.

Theorem C03_filter_by_column : forall name exp pred sched (t : table), rectangular t ->
  filter_table_col name exp pred sched true t = filter_table_col name exp pred sched false t.
Proof. exact filter_col_sharing. Qed.
Print Assumptions C03_filter_by_column.

Theorem C03_sortby : forall C (so : sorter) (ev : C -> nat -> res value * C) init g sched cmp (t : table),
  sort_contract so -> rectangular t -> row_function ev init g -> complete_schedule (length t) sched ->
  sortby_table so ev init sched cmp true t = sortby_table so ev init sched cmp false t.
Proof. exact sortby_sharing. Qed.
Print Assumptions C03_sortby.

Example C03_example :
  let g := fun i => Ok (num (Z.of_nat (10 - i))) in
  let cmp := fun a b => match a, b with VNum x, VNum y => Ok (Z.compare x y) | _, _ => Err 1 end in
  sort_contract isort /\ rectangular stock /\ row_function (fun (c : unit) i => (g i, c)) tt g /\
  complete_schedule (length stock) stock_sched /\
  sortby_table isort (fun (c : unit) i => (g i, c)) tt stock_sched cmp true stock =
    Ok [[S' "name"; S' "qty"]; [S' "pear"; ENil]; [S' "fig"; n' 3]; [S' "pear"; n' 7]].
Proof.
  cbv zeta. split; [exact isort_contract|]. split; [exact stock_rect|].
  split; [apply pure_row_function|]. split; [exact stock_sched_complete|]. vm_compute. reflexivity.
Qed.

(** The exception: see also C01_skip_max_refuted. *)
Theorem C03_skip_max_refuted : exists v t, rectangular t /\ count_is v usize_max /\
  skip_table false true v t <> skip_table false false v t.
Proof.
  exists (num (Z.of_N usize_max)), stock. split; [exact stock_rect|].
  split; [split; [reflexivity|discriminate]|]. vm_compute. discriminate.
Qed.
Print Assumptions C03_skip_max_refuted.
