(** Vocabulary for stating what table operations do. *)
From Coq Require Import List Bool Arith.
Import ListNotations.
Set Implicit Arguments.

(** Every row has the same width. *)
Definition rectangular {E} (t : list (list E)) : Prop :=
  forall r s, In r t -> In s t -> length r = length s.

Definition header {E} (t : list (list E)) : list (list E) :=
  match t with [] => [] | h :: _ => [h] end.
Definition data {E} (t : list (list E)) : list (list E) :=
  match t with [] => [] | _ :: d => d end.

(** Cell at row [i], column [j], if there is one. *)
Definition cell {E} (t : list (list E)) (i j : nat) : option E :=
  match nth_error t i with Some r => nth_error r j | None => None end.

Definition height {E} (t : list (list E)) : nat := length t.
Definition width_is {E} (w : nat) (t : list (list E)) : Prop := forall r, In r t -> length r = w.

(** Each data row with its index (the header has index 0). *)
Definition indexed {E} (t : list (list E)) : list (nat * list E) :=
  combine (seq 1 (length (data t))) (data t).

(** A schedule of the row workers: every data row is handled exactly once, by some worker, in
    some order. *)
From Coq Require Import Permutation.
Definition complete_schedule (nrows : nat) (sched : list (nat * nat)) : Prop :=
  Permutation (map snd sched) (seq 1 (nrows - 1)).
