(** What a row program computes on the plain table, and what a cache may contain. *)
From Coq Require Import List ZArith NArith.
From Verif Require Import Model.Base Model.Value Model.RowPar Spec.TableSpec Spec.ColSpec.
Import ListNotations.

(** Each lookup gives the cell of the first column of that name, or an error if there is none. *)
Inductive reads (t : table) (i : nat) : rowprog -> res value -> Prop :=
| reads_done r : reads t i (RDone r) r
| reads_cell name k c e v :
    column_named t name c -> cell t i c = Some e -> reads t i (k (Ok e)) v -> reads t i (RAsk name k) v
| reads_missing name k v :
    no_column_named t name -> reads t i (k (Err 11)) v -> reads t i (RAsk name k) v.

Definition fed (t : table) (c : list (list N * nat)) : Prop :=
  forall name i, In (name, i) c -> column_named t name i.
