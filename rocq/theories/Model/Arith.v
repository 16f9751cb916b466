(** Arithmetic on numbers as the machine does it. *)
From Coq Require Import String List ZArith Bool Floats.SpecFloat.
From Verif Require Import Model.Base Model.Value Model.Exec Model.Intrinsics.
Import ListNotations.
Set Implicit Arguments.

(** Numbers are [f64] while being calculated with: binary floating point with 53 bits and exponents up to 1024, all operations
    rounding to nearest, ties to even (IEEE 754, as given by the standard library of Coq; without the payload of NaNs). *)
Notation f64 := spec_float.
Definition f_add : f64 -> f64 -> f64 := SFadd 53 1024.
Definition f_sub : f64 -> f64 -> f64 := SFsub 53 1024.
Definition f_mul : f64 -> f64 -> f64 := SFmul 53 1024.
Definition f_div : f64 -> f64 -> f64 := SFdiv 53 1024.
Definition f_sqrt : f64 -> f64 := SFsqrt 53 1024.
Definition f_cmp : f64 -> f64 -> option comparison := SFcompare.
(** [x as f64] of a whole number *)
Definition f_of_Z (n : Z) : f64 := binary_normalize 53 1024 n 0 false.
(** [f64::is_finite] *)
Definition f_finite (x : f64) : bool := match x with S754_zero _ | S754_finite _ _ _ => true | _ => false end.

(** ogma/src/lang/impls/intrinsics/arithmetic.rs:26-34 [variadic_intrinsic_num].  The crate kserd keeps numbers in several
    forms; here it is taken that [as_f64] undoes [into].  So a number is what [as_f64] gives, and [from], [to] get it out of and
    into values. *)
Section Num.
  Variable W : Type.
  Variables (from : value -> res f64) (to : f64 -> value).

  Definition num_op (f : f64 -> f64 -> f64) := @variadic_constrained W f64 TNum from to (fun prev next => (f prev next, false)).
  (** arithmetic.rs:54-56 *)
  Definition add_num := num_op f_add.
  (** arithmetic.rs:227-229 *)
  Definition div_num := num_op f_div.
  (** arithmetic.rs:304-306 *)
  Definition mul_num := num_op f_mul.
  (** arithmetic.rs:364-366 *)
  Definition sub_num := num_op f_sub.
End Num.

(** arithmetic.rs:77-82 *)
Definition add_str (W : Type) := @variadic_constrained W str TStr as_str VStr (fun prev next => ((prev ++ next)%list, false)).

(** arithmetic.rs:333-342, the number given by [root].  [tenth] is [1e-10]; [cbrt] and [powf] of the system are arbitrary. *)
Definition tenth : f64 := f_div (f_of_Z 1) (f_of_Z 10000000000).
Definition root_num (cbrt : f64 -> f64) (powf : f64 -> f64 -> f64) (radicand index : f64) : f64 :=
  let near k := match f_cmp (SFabs (f_sub index (f_of_Z k))) tenth with Some Lt => true | _ => false end in
  if near 2%Z then f_sqrt radicand
  else if near 3%Z then cbrt radicand
  else powf radicand (f_div (f_of_Z 1) index).
