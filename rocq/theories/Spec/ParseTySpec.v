(** How definitions of types are written, and the types they mean. *)
From Coq Require Import String List ZArith NArith Bool Arith.
From Verif Require Import Model.Base Model.Utf Model.Value Model.Ast Model.Parse Model.Registry Model.ParseTy Spec.ParseSpec.
Import ListNotations.
Set Implicit Arguments.

(** Things one after the other, each written as [W] says and followed by what [sep] says. *)
Inductive w_list {A} (W sep : A -> str -> Prop) : list A -> str -> Prop :=
| w_list_nil : w_list W sep [] []
| w_list_one : forall a w s w', spaces w -> W a s -> spaces w' -> w_list W sep [a] (w ++ s ++ w')
| w_list_more : forall a l w s w' s', spaces w -> W a s -> sep a w' -> w_list W sep l s' -> l <> [] -> w_list W sep (a :: l) (w ++ s ++ w' ++ s').

Section Write.
  Variable k : lang.

  Definition w_tag (t : tag) (s : str) : Prop := name k (tg_str t) /\ s = tg_str t.
  (** [<A B>] *)
  Definition w_tparams (ps : list tag) (s : str) : Prop :=
    (ps = [] /\ s = []) \/ (ps <> [] /\ exists s', w_list w_tag (fun _ w => gap w) ps s' /\ s = lit "<" ++ s' ++ lit ">").
  (** [name:Type] *)
  Definition w_field (f : tfield) (s : str) : Prop :=
    name k (tg_str (tf_name f)) /\ name k (tg_str (tf_ty f)) /\
    exists sp, w_tparams (tf_params f) sp /\ s = tg_str (tf_name f) ++ lit ":" ++ tg_str (tf_ty f) ++ sp.
  (** Space between fields, which there need not be after [>]. *)
  Definition w_fields : list tfield -> str -> Prop := w_list w_field (fun f w => spaces w /\ (tf_params f = [] -> w <> [])).
  Definition w_variant (v : tvariant) (s : str) : Prop :=
    name k (tg_str (fst v)) /\
    match snd v with
    | None => s = tg_str (fst v)
    | Some fs => exists w sf, spaces w /\ w_fields fs sf /\ s = tg_str (fst v) ++ w ++ lit "{" ++ sf ++ lit "}"
    end.
  Inductive w_variants : list tvariant -> str -> Prop :=
  | w_variants_one : forall v w s w', spaces w -> w_variant v s -> spaces w' -> w_variants [v] (w ++ s ++ w')
  | w_variants_more : forall v vs w s w' s', spaces w -> w_variant v s -> spaces w' -> w_variants vs s' ->
      w_variants (v :: vs) (w ++ s ++ w' ++ lit "|" ++ s').
  Inductive w_deftype (n : tag) : tbody -> str -> Prop :=
  | w_product : forall fs w0 w1 sf w2, name k (tg_str n) -> spaces w0 -> spaces w1 -> w_fields fs sf -> spaces w2 ->
      w_deftype n (TbProduct fs) (w0 ++ lit "def-ty " ++ tg_str n ++ w1 ++ lit "{" ++ sf ++ lit "}" ++ w2)
  | w_sum : forall vs w0 w1 sv, name k (tg_str n) -> spaces w0 -> spaces w1 -> w_variants vs sv ->
      w_deftype n (TbSum vs) (w0 ++ lit "def-ty " ++ tg_str n ++ w1 ++ lit "::" ++ sv)
  (** no variants at all *)
  | w_none : forall w0 w1 w2, name k (tg_str n) -> spaces w0 -> spaces w1 -> spaces w2 ->
      w_deftype n (TbSum []) (w0 ++ lit "def-ty " ++ tg_str n ++ w1 ++ lit "::" ++ w2).
End Write.

Definition er_field (f : tfield) : tfield := TField (er_tag (tf_name f)) (er_tag (tf_ty f)) (map er_tag (tf_params f)).
Definition er_variant (v : tvariant) : tvariant := (er_tag (fst v), option_map (map er_field) (snd v)).
Definition er_body (b : tbody) : tbody := match b with TbSum vs => TbSum (map er_variant vs) | TbProduct fs => TbProduct (map er_field fs) end.

(** ** Meaning *)
Section Means.
  Variable ts : types.
  Definition is_type (n : str) (t : ty) : Prop := get_type ts n = Some t.
  (** The name, and the type of this name; the types in angle brackets have to exist. *)
  Definition field_means (f : tfield) (x : str * ty) : Prop :=
    fst x = tg_str (tf_name f) /\ is_type (tg_str (tf_ty f)) (snd x) /\ Forall (fun p => exists t, is_type (tg_str p) t) (tf_params f).
  Definition variant_means (v : tvariant) (x : str * option (list (str * ty))) : Prop :=
    fst x = tg_str (fst v) /\ match snd v, snd x with None, None => True | Some fs, Some xs => Forall2 field_means fs xs | _, _ => False end.
  Definition body_means (b : tbody) (v : tyvariant) : Prop :=
    match b, v with
    | TbSum vs, TSum xs => Forall2 variant_means vs xs
    | TbProduct fs, TProduct xs => Forall2 field_means fs xs
    | _, _ => False
    end.
End Means.
