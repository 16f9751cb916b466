(** C85: random numbers are in the range that is asked for. *)
From Coq Require Import List ZArith Bool Floats.SpecFloat.
From Verif Require Import Model.Base Model.Arith Model.Rand Spec.ArithSpec Spec.RandSpec Proofs.RandProofs.
Import ListNotations.

(** Whatever the generator draws, all numbers are in the range if it starts at zero, or if its ends are multiples of the same power
    of two for which the format has room, and for the difference as well (such as whole numbers below 2^52). *)
Theorem C85_bounds : forall uint draw args from to, (forall i, drawn (draw i)) -> range_of args from to ->
  (from = zero /\ number to) \/ (exists a b k, exactly from a k /\ exactly to b k /\ fits a k /\ fits b k /\ fits (b - a) k /\ (a < b)%Z) ->
  forall out x, rand uint draw args = Ok out -> (out = RNum x \/ exists col, out = RTab col /\ In x col) ->
  f_finite x = true /\ not_above from x /\ not_above x to.
Proof. exact bounds_proof. Qed.
Print Assumptions C85_bounds.

(** For other ranges which are not too wide, none is below the start, and none above the start with the width added. *)
Theorem C85_general : forall uint draw args from to, (forall i, drawn (draw i)) -> range_of args from to -> number from -> number to ->
  f_finite (f_sub to from) = true -> f_finite (f_add (f_sub to from) from) = true ->
  forall out x, rand uint draw args = Ok out -> (out = RNum x \/ exists col, out = RTab col /\ In x col) ->
  f_finite x = true /\ in_range from to x.
Proof. exact general_proof. Qed.
Print Assumptions C85_general.

(** There is a number, or a table with as many rows as asked for, if the range is not empty; and neither if it is. *)
Theorem C85_outcome : forall uint draw args from to, range_of args from to -> number from -> number to ->
  (f_cmp from to = Some Lt -> (length args < 3)%nat -> exists x, rand uint draw args = Ok (RNum x)) /\
  (f_cmp from to = Some Lt -> forall n len, args = [from; to; n] -> uint n = Ok len -> exists col, rand uint draw args = Ok (RTab col) /\ length col = len) /\
  (not_above to from -> forall out, rand uint draw args <> Ok out).
Proof. exact outcome_proof. Qed.
Print Assumptions C85_outcome.

Section Examples.
  Let num := f_of_Z.
  Let half : f64 := f_div (num 1) (num 2).
  (** The largest number below 1 that is drawn *)
  Let most : f64 := f_sub (num 1) (S754_finite false 4503599627370496 (-104)).
  Let uint (x : f64) : res nat := if match f_cmp x (num 3) with Some Eq => true | _ => false end then Ok 3%nat else Err 1%nat.

  Example C85_example : drawn half /\ drawn most /\ drawn zero /\
    rand uint (fun _ => half) [] = Ok (RNum half) /\
    rand uint (fun _ => half) [num (-3); num 5] = Ok (RNum (num 1)) /\
    rand uint (fun i => match i with 1%nat => half | _ => zero end) [num (-3); num 5; num 3] = Ok (RTab [num (-3); num 1; num (-3)]) /\
    rand uint (fun _ => half) [num 5; num 5] = Err 0%nat.
  Proof. unfold drawn, number, not_above. vm_compute. repeat split; auto. Qed.
  (** The hypotheses of C85_bounds for the range from -3 to 5 *)
  Example C85_example_range : exactly (num (-3)) (-3) 0 /\ exactly (num 5) 5 0 /\ fits (-3) 0 /\ fits 5 0 /\ fits (5 - -3) 0 /\ (-3 < 5)%Z.
  Proof. vm_compute. repeat split; intros; discriminate. Qed.

  (** Finding: the help says that numbers are above the start of the range.  The start itself is returned if 0 is drawn. *)
  Theorem C85_from_refuted : exists r from to, drawn r /\ f_cmp from to = Some Lt /\ rand uint (fun _ => r) [from; to] = Ok (RNum from).
  Proof. exists zero, (num 1), (num 2). unfold drawn, number, not_above. vm_compute. repeat split; auto. Qed.

  (** Finding: the end is not left out either, as the example of the help for random digits needs.  It is returned after rounding,
      although what is drawn is below 1. *)
  Theorem C85_to_refuted : exists r from to, drawn r /\ f_cmp from to = Some Lt /\ rand uint (fun _ => r) [from; to] = Ok (RNum to).
  Proof. exists most, (num 9007199254740992), (num 9007199254740994). unfold drawn, number, not_above. vm_compute. repeat split; auto. Qed.

  (** Finding: if the range is wider than the largest float, the result is infinite or not a number. *)
  Theorem C85_wide_refuted : exists from to, number from /\ number to /\ f_cmp from to = Some Lt /\
    rand uint (fun _ => half) [from; to] = Ok (RNum (S754_infinity false)) /\ rand uint (fun _ => zero) [from; to] = Ok (RNum S754_nan).
  Proof. exists (S754_finite true 4503599627370496 971), (S754_finite false 4503599627370496 971). vm_compute. repeat split; auto. Qed.
End Examples.
