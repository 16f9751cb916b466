(** Columns by name. *)
From Coq Require Import List NArith ZArith.
From Verif Require Import Model.Base Model.Value.
Import ListNotations.
Set Implicit Arguments.

(** Column [c] is the first one of [t] whose header cell is the string [n]. *)
Definition column_named (t : table) (n : str) (c : nat) : Prop :=
  exists h d, t = h :: d /\ nth_error h c = Some (EObj (VStr n)) /\
              forall j, j < c -> nth_error h j <> Some (EObj (VStr n)).

Definition no_column_named (t : table) (n : str) : Prop := forall c, ~ column_named t n c.

(** The entry of a row in a column. *)
Definition cell_at (c : nat) (r : row) : ent := nth c r ENil.

(** A row extended to width [w] with nil entries. *)
Definition widen (w : nat) (r : row) : row := map (fun j => nth j r ENil) (seq 0 w).
