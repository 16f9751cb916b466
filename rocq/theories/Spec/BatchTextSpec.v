(** What of a text is run as a batch. *)
From Coq Require Import List NArith Bool.
From Verif Require Import Model.Base Model.Parse Model.File Model.Batch Model.CommandLine Spec.ParseSpec Spec.FileSpec Spec.BatchSpec.
Import ListNotations.

(** The items of a text, in the order in which they are written, see C37. *)
Definition contains (k : lang) (text : str) (xs : list (kind * File.item)) : Prop :=
  exists head body its own, text = head ++ body /\ splits k 0 head body its /\
    Forall2 (fun bi ox => entry k (fst bi) (snd bi) (fst ox) (snd ox)) its (combine own xs) /\ length own = length xs.

Definition type_of (x : kind) : item_type := match x with KType _ => IType | KImpl _ => IImpl | KExpr => IExpr end.
Definition same_type (a b : item_type) : bool := match a, b with IType, IType | IImpl, IImpl | IExpr, IExpr => true | _, _ => false end.
(** An item with its line, its text and what it is *)
Definition listed (x : kind * File.item) : nat * Batch.item :=
  (N.to_nat (File.it_line (snd x)), Batch.Item (File.it_code (snd x)) (type_of (fst x))).
(** The items of a type, in the order of the text *)
Definition of_type (t : item_type) (xs : list (kind * File.item)) : list (nat * Batch.item) :=
  map listed (filter (fun x => same_type (type_of (fst x)) t) xs).
