(** When a type may be guessed, independently of any order of trials. *)
From Coq Require Import List.
From Verif Require Import Model.Infer.

(** [t] is the only candidate that compiles, and no candidate ran into the depth limit. *)
Definition only_fit {T C} (f : T -> outcome C) (types : list T) (t : T) (c : C) : Prop :=
  In t types /\ f t = Compiles c /\ forall u, In u types -> u <> t -> f u = Unfit \/ f u = Fails.

Definition compiles {T C} (f : T -> outcome C) (t : T) : Prop := exists c, f t = Compiles c.
