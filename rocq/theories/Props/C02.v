(** C02: filter keeps exactly the rows whose predicate is true. *)
From Coq Require Import String List ZArith NArith.
From Verif Require Import Model.Base Model.Value Model.TableCrate Model.RowPar Model.TableOps
  Spec.TableSpec Spec.ParSpec Spec.ColSpec Spec.OpsSpec
  Proofs.FilterProofs Proofs.Filter2Proofs Proofs.Summary1 Proofs.Samples.
Import ListNotations.

Theorem C02_filter_rows : forall C (ev : C -> nat -> res value * C) init g sched owned (t : table),
  rectangular t -> row_function ev init g -> complete_schedule (length t) sched ->
  match filter_table ev init sched owned t with
  | Ok t' => (forall i, 1 <= i < length t -> is_bool (g i)) /\
             t' = header t ++ selected (fun i => true_val (g i)) t
  | Err e => exists i, 1 <= i < length t /\ pred_error (g i) e
  | Panic => exists i, 1 <= i < length t /\ g i = Panic
  end.
Proof. exact filter_table_outcome. Qed.
Print Assumptions C02_filter_rows.

(** With a column: an entry of another type drops the row and the predicate is not asked. *)
Theorem C02_filter_by_column : forall name exp pred sched owned (t : table) j,
  rectangular t -> complete_schedule (length t) sched -> column_named t name j ->
  let verdict := fun i => match cell t i j with Some e => judge exp pred e | None => Panic end in
  match filter_table_col name exp pred sched owned t with
  | Ok t' => (forall i, 1 <= i < length t -> is_bool (verdict i)) /\
             t' = header t ++ selected (fun i => true_val (verdict i)) t
  | Err e => exists i, 1 <= i < length t /\ pred_error (verdict i) e
  | Panic => exists i v, 1 <= i < length t /\ pred v = Panic
  end.
Proof. exact filter_col_correct. Qed.
Print Assumptions C02_filter_by_column.

(** A missing column is an error as soon as there is a data row. *)
Theorem C02_filter_missing_column : forall name exp pred sched owned (t : table),
  rectangular t -> complete_schedule (length t) sched -> no_column_named t name ->
  match filter_table_col name exp pred sched owned t with
  | Ok t' => data t = [] /\ t' = t
  | Err _ => data t <> []
  | Panic => False
  end.
Proof. exact filter_col_missing. Qed.
Print Assumptions C02_filter_missing_column.

(** [--cols]: the columns whose header text satisfies the predicate, in order. *)
Theorem C02_filter_columns : forall pred (t : table), rectangular t ->
  match filter_cols pred t with
  | Ok t' => exists keep, length keep = cols_len t /\
      (forall j, j < cols_len t -> pred (header_text t j) = Ok (VBool (nth j keep false))) /\
      t' = map (marked keep) t
  | Err e => exists j, j < cols_len t /\ rbind (pred (header_text t j)) as_bool = Err e
  | Panic => exists j, j < cols_len t /\ pred (header_text t j) = Panic
  end.
Proof. exact filter_cols_outcome. Qed.
Print Assumptions C02_filter_columns.

Theorem C02_filter_string : forall pred s,
  match filter_str pred s with
  | Ok r => (forall c, In c s -> exists b, pred c = Ok (VBool b)) /\
       r = filter (fun c => match pred c with Ok (VBool b) => b | _ => false end) s
  | Err x => exists c, In c s /\ rbind (pred c) as_bool = Err x
  | Panic => exists c, In c s /\ pred c = Panic
  end.
Proof. exact filter_str_outcome. Qed.
Print Assumptions C02_filter_string.

(** Keep rows 1 and 3. *)
Example C02_example_rows :
  let g := fun i => Ok (VBool (negb (Nat.eqb i 2))) in
  let ev := fun (c : nat) i => (g i, S c) in
  rectangular stock /\ row_function ev 0 g /\ complete_schedule (length stock) stock_sched /\
  filter_table ev 0 stock_sched false stock =
    Ok [[S' "name"; S' "qty"]; [S' "pear"; n' 7]; [S' "pear"; ENil]].
Proof.
  cbv zeta. split; [exact stock_rect|]. split.
  - exists (fun _ => True). cbn. auto.
  - split; [exact stock_sched_complete|]. vm_compute. reflexivity.
Qed.

(** The nil cell in [qty] is dropped, not reported. *)
Example C02_example_column :
  column_named stock (lit "qty") 1 /\
  filter_table_col (lit "qty") TNum (fun _ => Ok (VBool true)) stock_sched true stock =
    Ok [[S' "name"; S' "qty"]; [S' "pear"; n' 7]; [S' "fig"; n' 3]].
Proof. split; [apply column_named_b; reflexivity|vm_compute; reflexivity]. Qed.

(** No error for a missing column when there is nothing to filter. *)
Theorem C02_missing_column_unreported_refuted : exists name t,
  rectangular t /\ no_column_named t name /\
  filter_table_col name TNum (fun _ => Ok (VBool true)) [] true t = Ok t.
Proof.
  exists (lit "x"), [[S' "name"]]. split; [apply rect_b_ok; reflexivity|]. split; [|reflexivity].
  eapply no_column_b. reflexivity.
Qed.
Print Assumptions C02_missing_column_unreported_refuted.
