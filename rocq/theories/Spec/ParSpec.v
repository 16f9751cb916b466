(** What a row expression is, independently of worker state. *)
From Coq Require Import List Arith.
From Verif Require Import Model.Base.
Import ListNotations.
Set Implicit Arguments.

(** Evaluating [ev] on row [i] gives [g i], whatever the worker that does it has evaluated
    before: some property of the worker context holds initially, is kept by every evaluation, and
    suffices for the answer. *)
Definition row_function {V C} (ev : C -> nat -> res V * C) (init : C) (g : nat -> res V) : Prop :=
  exists inv : C -> Prop,
    inv init /\
    forall c i, inv c -> 1 <= i -> fst (ev c i) = g i /\ inv (snd (ev c i)).

(** The outcome of doing a fallible job for each row of a list: all succeed, or the error of one
    of the failing rows, or a panic if a row panics. *)
Definition rows_outcome {A} (rows : list nat) (job : nat -> res A) (out : res (list A)) : Prop :=
  match out with
  | Ok l => map Ok l = map job rows
  | Err e => (exists i, In i rows /\ job i = Err e) /\ (forall i, In i rows -> job i <> Panic)
  | Panic => exists i, In i rows /\ job i = Panic
  end.

(** The same for an expression applied to an input on row [i]. *)
Definition row_function_in {V W C} (ev : C -> nat -> W -> res V * C) (init : C) (g : nat -> W -> res V)
  : Prop :=
  exists inv : C -> Prop,
    inv init /\
    forall c i x, inv c -> 1 <= i -> fst (ev c i x) = g i x /\ inv (snd (ev c i x)).
