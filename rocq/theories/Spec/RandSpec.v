(** Ranges of numbers. *)
From Coq Require Import List ZArith Bool Floats.SpecFloat.
From Verif Require Import Model.Base Model.Arith.
Import ListNotations.

(** A float that is a number: one of the 64 bit floats, not infinite and not NaN *)
Definition number (x : f64) : Prop := valid_binary 53 1024 x = true /\ f_finite x = true.
Definition not_above (x y : f64) : Prop := f_cmp x y = Some Lt \/ f_cmp x y = Some Eq.
Definition zero : f64 := S754_zero false.
Definition one : f64 := S754_finite false 4503599627370496 (-52).

(** What a generator gives: a number from 0 to below 1 *)
Definition drawn (r : f64) : Prop := number r /\ not_above zero r /\ f_cmp r one = Some Lt.

(** The range asked for *)
Inductive range_of : list f64 -> f64 -> f64 -> Prop :=
| range_none : range_of [] zero one
| range_to : forall to, range_of [to] zero to
| range_both : forall from to, range_of [from; to] from to
| range_len : forall from to n, range_of [from; to; n] from to.

(** A value between [from] and what adding the width of the range to it gives, which is [to] but for rounding *)
Definition in_range (from to x : f64) : Prop :=
  not_above from x /\ not_above x (f_add (f_sub to from) from).
