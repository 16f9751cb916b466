(** What it means to run a pipeline. *)
From Coq Require Import List.
From Verif Require Import Model.Base Model.Value Model.Exec.
Import ListNotations.
Set Implicit Arguments.

(** not a value: an error or a panic *)
Definition halt {A} (f : option nat) : res A := match f with Some n => Err n | None => Panic end.

Section Run.
Variable W : Type.

(** A state of the run: the outside world, the value, the variables. *)
Record state := At { at_world : W; at_value : value; at_env : env }.

(** one block turns a state into a state *)
Definition moves (s : step W) (a b : state) : Prop :=
  invoke s (at_value a) (at_env a) (at_world a) = (at_world b, Ok (at_value b, at_env b)).
(** one block stops in world [w] with an error or a panic *)
Definition stops (s : step W) (a : state) (w : W) (f : option nat) : Prop :=
  invoke s (at_value a) (at_env a) (at_world a) = (w, halt f).

(** all blocks in order, each on what the one before left *)
Inductive runs : list (step W) -> state -> state -> Prop :=
| runs_none a : runs [] a a
| runs_next s l a b c : moves s a b -> runs l b c -> runs (s :: l) a c.

Definition evals (l : list (step W)) (a b : state) : Prop :=
  eval l (at_value a) (at_env a) (at_world a) = (at_world b, Ok (at_value b, at_env b)).
Definition eval_stops (l : list (step W)) (a : state) (w : W) (f : option nat) : Prop :=
  eval l (at_value a) (at_env a) (at_world a) = (w, halt f).

End Run.
