(** Common vocabulary of the model: results, checked machine arithmetic, strings. *)
From Coq Require Import String Ascii List ZArith NArith Bool Lia.
Import ListNotations.
Set Implicit Arguments.

(** ogma/src/common/err.rs:1-60 [Result], [Error].  An error is kept abstract as a code.
    [Panic] stands for an unwinding panic of the process (index out of bounds, [unwrap],
    arithmetic overflow in a checked build, [todo!]). *)
Inductive res (A : Type) : Type :=
| Ok (a : A)
| Err (e : nat)
| Panic.
Arguments Ok {A} a.
Arguments Err {A} e.
Arguments Panic {A}.

(** The [?] operator of Rust. *)
Definition rbind {A B} (r : res A) (f : A -> res B) : res B :=
  match r with Ok a => f a | Err e => Err e | Panic => Panic end.

Declare Scope res_scope.
Delimit Scope res_scope with res.
Notation "'let?' x ':=' r 'in' k" := (rbind r (fun x => k))
  (at level 200, x name, r at level 100, k at level 200) : res_scope.
Open Scope res_scope.

Definition rmap {A B} (f : A -> B) (r : res A) : res B :=
  match r with Ok a => Ok (f a) | Err e => Err e | Panic => Panic end.

Definition is_ok {A} (r : res A) : bool := match r with Ok _ => true | _ => false end.

(** Left-to-right evaluation of a list of fallible computations, stopping at the first failure
    (the [for x in xs { v.push(f(x)?) }] idiom). *)
Fixpoint rmapM {A B} (f : A -> res B) (l : list A) : res (list B) :=
  match l with
  | [] => Ok []
  | a :: l => let? b := f a in let? bs := rmapM f l in Ok (b :: bs)
  end.

(** Strings are lists of Unicode scalar values.  Rust orders [str] by UTF-8 bytes, which is the
    same order as that of code point sequences. *)
Notation str := (list N).

Fixpoint str_eqb (a b : str) : bool :=
  match a, b with
  | [], [] => true
  | x :: a, y :: b => N.eqb x y && str_eqb a b
  | _, _ => false
  end.

Fixpoint str_cmp (a b : str) : comparison :=
  match a, b with
  | [], [] => Eq
  | [], _ :: _ => Lt
  | _ :: _, [] => Gt
  | x :: a, y :: b => match N.compare x y with Eq => str_cmp a b | c => c end
  end.

Fixpoint lit (s : string) : str :=
  match s with
  | EmptyString => []
  | String c s => N_of_ascii c :: lit s
  end.

Arguments lit s%string.

(** Machine words: [usize] on a 64-bit target. *)
Definition usize_max : N := 18446744073709551615%N.

Lemma str_eqb_spec : forall a b, reflect (a = b) (str_eqb a b).
Proof.
  induction a as [|x a IH]; destruct b as [|y b]; cbn; try (constructor; congruence).
  destruct (N.eqb_spec x y); cbn.
  - destruct (IH b); constructor; congruence.
  - constructor; congruence.
Qed.

Lemma str_eqb_refl : forall a, str_eqb a a = true.
Proof. intros; destruct (str_eqb_spec a a); congruence. Qed.

Lemma str_eqb_eq : forall a b, str_eqb a b = true <-> a = b.
Proof. intros; destruct (str_eqb_spec a b); split; congruence. Qed.

Lemma str_eqb_neq : forall a b, str_eqb a b = false <-> a <> b.
Proof. intros; destruct (str_eqb_spec a b); split; congruence. Qed.

Definition str_eq_dec (a b : str) : {a = b} + {a <> b}.
Proof. apply (list_eq_dec N.eq_dec). Defined.
