(** The number a float stands for, and exact arithmetic. *)
From Coq Require Import List ZArith Bool Floats.SpecFloat.
From Verif Require Import Model.Base.
Import ListNotations.
Open Scope Z_scope.

(** [x] is exactly [a * 2^k]: comparing both as multiples of the smaller power of two.  Floats are kept in the form the
    format prescribes ([valid_binary]). *)
Definition exactly (x : spec_float) (a k : Z) : Prop :=
  match x with
  | S754_zero _ => a = 0
  | S754_finite s m e =>
      valid_binary 53 1024 x = true /\
      let j := Z.min e k in (if s then Z.neg m else Z.pos m) * 2 ^ (e - j) = a * 2 ^ (k - j)
  | _ => False
  end.

(** The format has room for [a * 2^k]. *)
Definition fits (a k : Z) : Prop := Z.abs a < 2 ^ 53 /\ -1074 <= k <= 971.

(** A whole number. *)
Definition whole (x : spec_float) (n : Z) : Prop := exactly x n 0.
(** Whole numbers up to this many digits. *)
Definition small (n : Z) : Prop := Z.abs n < 2 ^ 53.

(** All results on the way of a left to right calculation. *)
Fixpoint on_the_way (f : Z -> Z -> Z) (n : Z) (ns : list Z) : list Z :=
  match ns with [] => [] | m :: ns => f n m :: on_the_way f (f n m) ns end.

(** [n] is divided by each of [ns] in turn without remainder, and [m] is left. *)
Fixpoint shared (n : Z) (ns : list Z) (m : Z) : Prop :=
  match ns with [] => n = m | b :: ns => exists q, n = q * b /\ b <> 0 /\ small q /\ shared q ns m end.
