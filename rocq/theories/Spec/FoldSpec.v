(** A left fold with effects, as the sequence of evaluations it makes. *)
From Coq Require Import List Arith.
From Verif Require Import Model.Base Model.Value.
Import ListNotations.
Set Implicit Arguments.

(** Starting with accumulator [x] and state [s], evaluating [step] on rows i, i+1, .., i+n-1 succeeds
    each time and ends with [y] and [s']. *)
Inductive chain {S} (step : S -> value -> nat -> res value * S) : nat -> value -> S -> nat -> value -> S -> Prop :=
| chain_nil : forall i x s, chain step i x s 0 x s
| chain_cons : forall i x s n x1 s1 y s',
    step s x i = (Ok x1, s1) -> chain step (Datatypes.S i) x1 s1 n y s' -> chain step i x s (Datatypes.S n) y s'.

(** The same where before each evaluation the predicate is evaluated and gives true. *)
Inductive guarded_chain {S} (pred step : S -> value -> nat -> res value * S)
  : nat -> value -> S -> nat -> value -> S -> Prop :=
| gchain_nil : forall i x s, guarded_chain pred step i x s 0 x s
| gchain_cons : forall i x s n s0 x1 s1 y s',
    pred s x i = (Ok (VBool true), s0) -> step s0 x i = (Ok x1, s1) ->
    guarded_chain pred step (Datatypes.S i) x1 s1 n y s' ->
    guarded_chain pred step i x s (Datatypes.S n) y s'.
