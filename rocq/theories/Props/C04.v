(** C04: parallel row evaluation does not change results. *)
From Coq Require Import String List ZArith NArith Arith.
From Verif Require Import Model.Base Model.Value Model.TableCrate Model.RowPar Model.TableOps
  Spec.TableSpec Spec.ParSpec Proofs.RowParProofs Proofs.Samples.
Import ListNotations.

(** Any callback that, from a worker context satisfying some kept property, updates the buffer
    element of row [i] by [upd i] and returns [r i]. *)
Theorem C04_par_rows : forall (A C : Type) (f : A -> C -> nat -> A * C * res unit) (init : C)
    (inv : C -> Prop) (upd : nat -> A -> A) (r : nat -> res unit),
  inv init ->
  (forall a c i, inv c -> 1 <= i -> exists c', f a c i = (upd i a, c', r i) /\ inv c') ->
  forall sched buf0, complete_schedule (length buf0) sched ->
  match par_over_tablerows f init sched buf0 with
  | Ok buf => length buf = length buf0 /\
              (forall i, 1 <= i < length buf0 -> r i = Ok tt) /\
              (forall i, nth_error buf i =
                         if i =? 0 then nth_error buf0 i else option_map (upd i) (nth_error buf0 i))
  | Err e => (exists i, 1 <= i < length buf0 /\ r i = Err e) /\
             (forall i, 1 <= i < length buf0 -> r i <> Panic)
  | Panic => exists i, 1 <= i < length buf0 /\ r i = Panic
  end.
Proof. exact par_over_tablerows_outcome. Qed.
Print Assumptions C04_par_rows.

(** The form used by filter, append, sort-by and grp-by: evaluate an expression on the row and
    store the converted value. *)
Theorem C04_assign : forall (A C : Type) (ev : C -> nat -> res value * C) (init : C)
    (g : nat -> res value) (cv : nat -> value -> res A), row_function ev init g ->
  forall sched (h : A) buf, complete_schedule (S (length buf)) sched ->
  match par_over_tablerows (assign_cb ev cv) init sched (h :: buf) with
  | Ok l => exists l', l = h :: l' /\ rows_outcome (seq 1 (length buf)) (fun i => rbind (g i) (cv i)) (Ok l')
  | Err e => rows_outcome (seq 1 (length buf)) (fun i => rbind (g i) (cv i)) (Err e)
  | Panic => rows_outcome (seq 1 (length buf)) (fun i => rbind (g i) (cv i)) Panic
  end.
Proof. exact assign_outcome. Qed.
Print Assumptions C04_assign.

(** Two different schedules over two workers with a context that counts evaluations. *)
Example C04_example :
  let g := fun i => Ok (num (Z.of_nat (i * i))) in
  let ev := fun (c : nat) i => (g i, S c) in
  row_function ev 0 g /\ complete_schedule 4 [(0, 3); (1, 2); (0, 1)] /\
  par_over_tablerows (assign_cb ev (fun _ v => Ok v)) 0 [(0, 3); (1, 2); (0, 1)] [VNil; VNil; VNil; VNil] = Ok [VNil; num 1; num 4; num 9] /\
  par_over_tablerows (assign_cb ev (fun _ v => Ok v)) 0 [(1, 1); (1, 2); (1, 3)] [VNil; VNil; VNil; VNil] = Ok [VNil; num 1; num 4; num 9].
Proof.
  cbv zeta. split; [exists (fun _ => True); cbn; auto|]. split; [exact stock_sched_complete|].
  split; vm_compute; reflexivity.
Qed.

(** Which failing row is reported does depend on the schedule. *)
Theorem C04_error_choice_refuted : exists s1 s2 (g : nat -> res value),
  complete_schedule 4 s1 /\ complete_schedule 4 s2 /\
  par_over_tablerows (assign_cb (fun (c : unit) i => (g i, c)) (fun _ v => Ok v)) tt s1 [VNil; VNil; VNil; VNil] <>
  par_over_tablerows (assign_cb (fun (c : unit) i => (g i, c)) (fun _ v => Ok v)) tt s2 [VNil; VNil; VNil; VNil].
Proof.
  exists [(0, 3); (1, 2); (0, 1)], [(0, 1); (0, 2); (0, 3)], (fun i => Err i).
  split; [exact stock_sched_complete|]. split; [apply Permutation.Permutation_refl|]. vm_compute. discriminate.
Qed.
Print Assumptions C04_error_choice_refuted.
