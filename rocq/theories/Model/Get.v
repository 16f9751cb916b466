(** Reading a value out of a table row or a user type: pipeline.rs:100-200. *)
From Coq Require Import String List ZArith NArith Bool Lia.
From Verif Require Import Model.Base Model.Value Model.TableCrate Model.RowPar.
Import ListNotations.
Set Implicit Arguments.

(** pipeline.rs:121-133 [TableGetType]: a default argument (its declared output type and the result
    of evaluating it) or a type flag. *)
Inductive get_type := GDefault (out_ty : ty) (v : res value) | GFlag (t : ty).
Definition get_type_ty (g : get_type) : ty :=
  match g with GDefault t _ => t | GFlag t => t end.

(** pipeline.rs:135-157 [table_row_get] on row [i] of [t], with the column cache. *)
Definition table_row_get (t : table) (i : nat) (c : cache) (col : res value) (g : get_type)
    : res value * cache :=
  match rbind col as_str with
  | Err e => (Err e, c)
  | Panic => (Panic, c)
  | Ok name =>
      let (e, c') := row_entry t i c name in
      (let? e := e in
       match g with
       | GDefault out v =>
           let x := val_of_ent e in
           if negb (ty_eqb (ty_of x) out) then v else Ok x
       | GFlag ty => cnv_value e ty
       end, c')
  end.

(** pipeline.rs:161-189 [FieldAccessor::construct]: only product types; first field of that name. *)
Fixpoint field_index (name : str) (fs : list (str * ty)) : option (nat * ty) :=
  match fs with
  | [] => None
  | (n, t) :: fs =>
      if str_eqb n name then Some (0, t)
      else match field_index name fs with Some (i, t) => Some (S i, t) | None => None end
  end.
Definition field_accessor (t : ty) (name : str) : res (nat * ty) :=
  match t with
  | TDef (TyDef _ (TProduct fs)) =>
      match field_index name fs with Some x => Ok x | None => Err 31 end
  | _ => Err 30
  end.

(** pipeline.rs:191-198 [FieldAccessor::get]: removes the field from unshared data, copies it from
    shared data; both index out of bounds as a panic. *)
Definition field_get (owned : bool) (i : nat) (v : value) : res value :=
  match v with
  | VOgma _ _ data => match nth_error data i with Some x => Ok x | None => Panic end
  | _ => Err 1
  end.
