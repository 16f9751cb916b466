(** Ops that come with the language: what they check when compiled and what the step they make does. *)
From Coq Require Import String List ZArith NArith Bool.
From Verif Require Import Model.Base Model.Value Model.Exec.
Import ListNotations.
Set Implicit Arguments.

Section Ops.
Variable W : Type.

(** An argument as an op meets it: the types the type graph has for it, what it is compiled to (an error when a variable is
    not there or an expression is not compiled yet) with the type of that, and if it is a variable that may be bound the
    slot it gets ([None]: there is no next block).  A type that is not known makes each of the checks below fail (arg.rs),
    so it is not represented.  How arguments are taken from the block is in [Model.Block]; flags are left out. *)
Record node := Node {
  n_in : ty; n_out : ty; n_hold : res (hold W * ty); n_binder : option (option nat) }.

(** eng/arg.rs:85-118 [supplied]; errors: 5 *)
Definition supplied (t : ty) (n : node) : res node := if ty_eqb (n_in n) t then Ok n else Err 5.
(** eng/arg.rs:121-155 [returns]; errors: 6 *)
Definition returns (t : ty) (n : node) : res node := if ty_eqb (n_out n) t then Ok n else Err 6.
(** eng/arg.rs:166-203 [concrete] *)
Definition concrete (n : node) : res (hold W) :=
  let? h := n_hold n in if ty_eqb (snd h) (n_out n) then Ok (fst h) else Err 6.
(** eng/blk.rs:46-50 [assert_input] *)
Definition assert_input (t in_ty : ty) : res unit := if ty_eqb in_ty t then Ok tt else Err 7.

(** each argument: given the input of the block, giving [t] *)
Fixpoint all_return (in_ty t : ty) (args : list node) : res (list (hold W)) :=
  match args with
  | [] => Ok []
  | n :: args => let? n := supplied in_ty n in let? n := returns t n in let? h := concrete n in
                 let? hs := all_return in_ty t args in Ok (h :: hs)
  end.

(** ** Variadic ops *)
Section Variadic.
  Variables (T : Type) (t : ty) (from : value -> res T) (to : T -> value) (agg : T -> T -> T * bool).

  (** the loop: arguments [i], [i+1], ... of which there are [k] *)
  Fixpoint agg_loop (k i : nat) (input : value) (prev : T) : act W :=
    match k with
    | 0 => Done (to prev)
    | S k => Resolve i input (fun x => try (from x) (fun next =>
               let (x, exit) := agg prev next in
               if exit then Done (to x) else agg_loop k (S i) input x))
    end.

  (** the step: arguments alone, 163-169 *)
  Definition agnostic_step (hs : list (hold W)) : step W :=
    Op hs [] (fun input =>
      Resolve 0 input (fun x => try (from x) (fun prev => agg_loop (pred (length hs)) 1 input prev))).

  (** intrinsics/mod.rs:117-170 *)
  Definition variadic_agnostic (in_ty : ty) (args : list node) : res (step W * ty) :=
    match args with
    | [] => Err 1
    | _ => let? hs := all_return in_ty t args in
           Ok (agnostic_step hs, t)
    end.

  (** intrinsics/mod.rs:62-115 *)
  Definition variadic_constrained (in_ty : ty) (args : list node) : res (step W * ty) :=
    let? _ := assert_input t in_ty in
    match args with
    | [] => Err 1
    | _ => let? hs := all_return in_ty t args in
           Ok (Op hs [] (fun input => try (from input) (fun prev => agg_loop (length hs) 0 input prev)), t)
    end.
End Variadic.

(** ** logic.rs *)
(** 24-29 *)
Definition and_agg (prev next : bool) : bool * bool := let x := prev && next in (x, negb x).
Definition and_step := agnostic_step as_bool VBool and_agg.
Definition and_intrinsic := variadic_agnostic TBool as_bool VBool and_agg.
(** 133-138 *)
Definition or_agg (prev next : bool) : bool * bool := let x := prev || next in (x, x).
Definition or_step := agnostic_step as_bool VBool or_agg.
Definition or_intrinsic := variadic_agnostic TBool as_bool VBool or_agg.

(** 77-87: predicates and branches, then the last *)
Fixpoint if_args (in_ty : ty) (args : list node) : res (list (hold W) * list ty * ty) :=
  match args with
  | [] => Err 1
  | [n] => let? n := supplied in_ty n in let? h := concrete n in Ok ([h], [], n_out n)
  | p :: n :: args =>
      let? p := supplied in_ty p in let? p := returns TBool p in let? hp := concrete p in
      let? n := supplied in_ty n in let? h := concrete n in
      let? r := if_args in_ty args in
      let '(hs, ts, t) := r in Ok (hp :: h :: hs, n_out n :: ts, t)
  end.

(** 102-108 *)
Fixpoint if_loop (k i : nat) (input : value) : act W :=
  match k with
  | 0 => Resolve i input (fun x => Done x)
  | S k => Resolve i input (fun p => try (as_bool p) (fun b =>
             if b then Resolve (S i) input (fun x => Done x) else if_loop k (S (S i)) input))
  end.

(** [k] predicates with branches, and the last *)
Definition if_step (hs : list (hold W)) (k : nat) : step W := Op hs [] (fun input => if_loop k 0 input).

(** 60-109 *)
Definition if_intrinsic (in_ty : ty) (args : list node) : res (step W * ty) :=
  if Nat.even (length args) then Err 1
  else
    let? r := if_args in_ty args in
    let '(hs, ts, t) := r in
    if forallb (fun t' => ty_eqb t t') ts
    then Ok (if_step hs (length ts), t)
    else Err 8.

(** 123-128 *)
Definition not_step : step W := Op [] [] (fun input => try (as_bool input) (fun b => Done (VBool (negb b)))).
Definition not_intrinsic (in_ty : ty) (args : list node) : res (step W * ty) :=
  let? _ := assert_input TBool in_ty in
  match args with
  | [] => Ok (not_step, TBool)
  | _ :: _ => Err 3
  end.

(** ** cmp.rs, on numbers *)
(** 467-472, 491-496; [Number] is ordered as the numbers are *)
Definition max_intrinsic := variadic_constrained TNum as_num VNum (fun prev next => (Z.max prev next, false)).
Definition min_intrinsic := variadic_constrained TNum as_num VNum (fun prev next => (Z.min prev next, false)).

End Ops.
