(** What is listed of a directory. *)
From Coq Require Import String List ZArith NArith.
From Verif Require Import Model.Base Model.Value Model.Listing Spec.SortSpec.
Import ListNotations.

(** The name is [x], with a dot and [e] behind it, and neither starts with that dot nor has a later one. *)
Definition ends_in (name e : str) : Prop := name <> [46; 46]%N /\ exists x, name = x ++ [46%N] ++ e /\ x <> [] /\ ~ In 46%N e.
Definition cell (e : ent) (x : option str) : Prop := match x with Some s => e = EObj (VStr s) | None => e = ENil end.
(** Columns of a listing *)
Inductive kind : meta -> option str -> Prop :=
| kind_dir : forall m, m_dir m = true -> kind m (Some (lit "dir"))
| kind_file : forall m, m_dir m = false -> m_file m = true -> kind m (Some (lit "file"))
| kind_other : forall m, m_dir m = false -> m_file m = false -> kind m None.
Inductive suffix : str + option str -> option str -> Prop :=
| suffix_some : forall n e, ends_in n e -> suffix (inl n) (Some e)
| suffix_none : forall n, (forall e, ~ ends_in n e) -> suffix (inl n) None
| suffix_raw : forall x, suffix (inr x) x.
Definition named (d : dirent) (x : str) : Prop := d_name d = inl x \/ (exists y, d_name d = inr y) /\ x = [].
(** The row of an item: name, type, size, extension, date.  Without metadata there is only the name. *)
Inductive listed : dirent -> row -> Prop :=
| listed_full : forall d m x k s a b c e, named d x -> d_meta d = Some m -> kind m k -> cell a k -> suffix (d_name d) s -> cell b s -> cell c (m_modified m) ->
    e = ENum (num_of_Z (Z.of_N (m_len m))) -> listed d [EObj (VStr x); a; e; b; c]
| listed_name : forall d x, named d x -> d_meta d = None -> listed d [EObj (VStr x); ENil; ENil; ENil; ENil].

(** In order of the names *)
Definition by_name (a b : row) : comparison :=
  match a, b with EObj (VStr x) :: _, EObj (VStr y) :: _ => str_cmp x y | _, _ => Eq end.
(** Those items that could be read *)
Fixpoint present {A} (l : list (option A)) : list A := match l with [] => [] | Some x :: l => x :: present l | None :: l => present l end.
