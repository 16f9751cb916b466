(** What a grouping of keyed rows is. *)
From Coq Require Import String List Sorted NArith ZArith.
From Verif Require Import Model.Base Model.Value Spec.SortSpec.
Import ListNotations.
Set Implicit Arguments.

(** [groups] has one entry per class of keys, in ascending key order; the key shown is that of the
    first row of the class, and the table shown is the header followed by all rows of the class,
    in their original order. *)
Definition is_grouping {K R} (cmp : K -> K -> comparison) (keyed : list (K * R)) (h : R)
    (groups : list (K * list R)) : Prop :=
  StronglySorted (fun a b => cmp (fst a) (fst b) = Lt) groups /\
  (forall k rows, In (k, rows) groups ->
     (exists r, find (fun x => eqv cmp k (fst x)) keyed = Some (k, r)) /\
     rows = h :: map snd (filter (fun x => eqv cmp k (fst x)) keyed)) /\
  (forall k r, In (k, r) keyed -> exists k' rows, In (k', rows) groups /\ cmp k k' = Eq).

(** Texts joined by a hyphen; empty texts at the front are dropped. *)
Fixpoint join_hyphen (l : list str) : str :=
  match l with
  | [] => []
  | [s] => s
  | s :: l => s ++ lit "-" ++ join_hyphen l
  end.
Fixpoint drop_empty (l : list str) : list str :=
  match l with
  | [] :: l => drop_empty l
  | _ => l
  end.
