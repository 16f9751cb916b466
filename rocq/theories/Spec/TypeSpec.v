(** Values of a type, all the way down. *)
From Coq Require Import String List ZArith NArith Bool.
From Verif Require Import Model.Base Model.Value.
Import ListNotations.

(** The type of a value says what is in it: a product has a value for each field, of the field's type; a value of a sum is one
    of the variants, with that variant's fields. *)
Inductive has_ty : value -> ty -> Prop :=
| has_nil : has_ty VNil TNil
| has_bool b : has_ty (VBool b) TBool
| has_num n : has_ty (VNum n) TNum
| has_str s : has_ty (VStr s) TStr
| has_tab t : has_ty (VTab t) TTab
| has_row t i c : has_ty (VTabRow t i c) TTabRow
| has_product n fs data : have_tys data (map snd fs) -> has_ty (VOgma (TyDef n (TProduct fs)) 0 data) (TDef (TyDef n (TProduct fs)))
| has_sum n vs i x fs data : nth_error vs i = Some (x, fs) ->
    have_tys data (map snd (match fs with Some fs => fs | None => [] end)) ->
    has_ty (VOgma (TyDef n (TSum vs)) i data) (TDef (TyDef n (TSum vs)))
with have_tys : list value -> list ty -> Prop :=
| have_none : have_tys [] []
| have_one v t vs ts : has_ty v t -> have_tys vs ts -> have_tys (v :: vs) (t :: ts).
