(** What it is for a program to be type sound. *)
From Coq Require Import String List ZArith NArith Bool.
From Verif Require Import Model.Base Model.Value Model.Tuple Model.Compare Model.Typed Spec.TableSpec Spec.SortSpec.
Import ListNotations.

(** Types are told apart by name.  A collection of types in which this is enough: it has the types the language comes with
    and the types of the fields of its types, and only tuples have the names of tuples. *)
Record universe (U : ty -> Prop) : Prop := {
  u_names : forall a b, U a -> U b -> ty_eqb a b = true -> a = b;
  u_base : Forall U [TNil; TBool; TNum; TStr; TTab; TTabRow; TOrd];
  u_fields : forall d k fs x t, U (TDef d) -> variant_fields d k = Some fs -> In (x, t) fs -> U t;
  u_tuples : forall d, U (TDef d) -> is_tuple d = true -> exists ts, ts <> [] /\ d = tuple_ty ts }.

(** A value is of a type all the way down: the data of a user type is of the types of the fields, tables are rectangular and
    what is in them is of its own type, the row of a table row is there. *)
Inductive is_a (U : ty -> Prop) : value -> ty -> Prop :=
| is_nil : is_a U VNil TNil
| is_bool b : is_a U (VBool b) TBool
| is_num n : is_a U (VNum n) TNum
| is_str s : is_a U (VStr s) TStr
| is_tab t : rectangular t -> (forall r v, In r t -> In (EObj v) r -> U (ty_of v) /\ is_a U v (ty_of v)) -> is_a U (VTab t) TTab
| is_row t i c : rectangular t -> (forall r v, In r t -> In (EObj v) r -> U (ty_of v) /\ is_a U v (ty_of v)) -> i < length t ->
    is_a U (VTabRow t i c) TTabRow
| is_data d k fs vs : variant_fields d k = Some fs -> Forall2 (is_a U) vs (map snd fs) -> is_a U (VOgma d k vs) (TDef d).

(** Running ends with a result as described, or in an error which is not one of converting a value to the type it is taken
    for (1); not in a panic. *)
Definition behaves {A} (P : A -> Prop) (r : res A) : Prop :=
  match r with Ok a => P a | Err n => n <> 1 | Panic => False end.

(** Sorting is by a sort; [sort-by], which panics on a table without a header (C07), and [+] on the rows of tables, which may
    panic (C13), are not used.  No name is bound twice by one [let]. *)
Definition proper_prim (p : prim) : Prop :=
  match p with PSort so => sort_contract so | PSortBy _ => False | PAddTab byrow intersect => byrow = false \/ intersect = true | _ => True end.
Section Programs.
  Definition binder_names (bs : list (argument * (str * option nat))) (tr : option (str * option nat)) : list str :=
    map (fun b => fst (snd b)) bs ++ match tr with Some x => [fst x] | None => [] end.
  Inductive proper_blk : block -> Prop :=
  | proper_op p rows args : proper_prim p -> Forall proper_arg args -> proper_blk (KOp p rows args)
  | proper_let bs tr : Forall (fun b => proper_arg (fst b)) bs -> NoDup (binder_names bs tr) -> proper_blk (KLet bs tr)
  | proper_call ps args body : Forall proper_arg args -> Forall proper_blk body -> proper_blk (KCall ps args body)
  with proper_arg : argument -> Prop :=
  | proper_lit i t l : proper_arg (Arg i t (ALit l))
  | proper_input i t : proper_arg (Arg i t AInput)
  | proper_var i t x : proper_arg (Arg i t (AVar x))
  | proper_expr i t e : Forall proper_blk e -> proper_arg (Arg i t (AExpr e)).
End Programs.

(** the types that compiling has used, and the slots it has given out *)
Definition types_used (fs : list fact) : list ty := map (fun f => match f with FTy t | FSlot _ t => t end) fs.
Definition slots_used (fs : list fact) : list nat := flat_map (fun f => match f with FTy _ => [] | FSlot s _ => [s] end) fs.
