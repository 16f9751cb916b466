(** The operations of the external crate [table] that the code uses (git dependency
    kdr-aus/table, not part of /repo).  Assumed behaviour, supported by the tests in
    ogma/tests/commands: a table is a rectangular grid of entries, short rows and columns are
    padded with nil when something longer is added, and row 0 is the header: [sort] and
    [reverse_rows] leave it in place. *)
From Coq Require Import String List ZArith NArith Bool Lia.
From Verif Require Import Model.Base Model.Value.
Import ListNotations.
Set Implicit Arguments.

Definition rows_len (t : table) : nat := length t.
Definition cols_len (t : table) : nat := match t with [] => 0 | r :: _ => length r end.
Definition is_empty (t : table) : bool := match t with [] => true | _ => false end.

(** Pad on the right with nil entries up to width [w]. *)
Definition pad (w : nat) (r : row) : row := r ++ repeat ENil (w - length r).

Definition max_width (t : table) : nat := fold_right (fun r w => Nat.max (length r) w) 0 t.

(** [Table::from(Vec<Vec<_>>)]: square the grid. *)
Definition table_from (t : table) : table := map (pad (max_width t)) t.

(** [Table::add_row], [Table::add_rows] *)
Definition add_rows (t : table) (rs : list row) : table := table_from (t ++ rs).
Definition add_row (t : table) (r : row) : table := add_rows t [r].

(** [Table::add_cols]: columns go to the right; rows are added if a column is longer than the
    table, and nil fills the rest. *)
Definition add_cols (t : table) (cs : list (list ent)) : table :=
  let n := Nat.max (rows_len t) (max_width cs) in
  let w := cols_len t in
  map (fun i => pad w (nth i t []) ++ map (fun c => nth i c ENil) cs) (seq 0 n).
Definition add_col (t : table) (c : list ent) : table := add_cols t [c].

(** [Table::row], [Table::col] *)
Definition get_row (t : table) (i : nat) : option row := nth_error t i.
Definition get_cell (t : table) (i j : nat) : option ent :=
  match nth_error t i with Some r => nth_error r j | None => None end.
Definition get_col (t : table) (j : nat) : option (list ent) :=
  if j <? cols_len t then Some (map (fun r => nth j r ENil) t) else None.

(** [Table::retain_rows]: keep the rows whose index satisfies the predicate. *)
Fixpoint retain_from {A} (f : nat -> bool) (i : nat) (t : list A) : list A :=
  match t with
  | [] => []
  | r :: t => if f i then r :: retain_from f (S i) t else retain_from f (S i) t
  end.
Definition retain_rows (f : nat -> bool) (t : table) : table := retain_from f 0 t.

Fixpoint remove_nth {A} (i : nat) (l : list A) : list A :=
  match i, l with
  | _, [] => []
  | 0, _ :: l => l
  | S i, x :: l => x :: remove_nth i l
  end.
(** [Table::remove_row], [Table::remove_col_par] *)
Definition remove_row (i : nat) (t : table) : table := remove_nth i t.
Definition remove_col (j : nat) (t : table) : table := map (remove_nth j) t.

(** [Table::reverse_rows], [Table::reverse_cols_par] *)
Definition reverse_rows (t : table) : table :=
  match t with [] => [] | h :: d => h :: rev d end.
Definition reverse_cols (t : table) : table := map (@rev ent) t.

Fixpoint set_nth {A} (i : nat) (x : A) (l : list A) : list A :=
  match i, l with
  | _, [] => []
  | 0, _ :: l => x :: l
  | S i, y :: l => y :: set_nth i x l
  end.
(** Assigning one cell through [row_mut]/[col_mut]. *)
Definition set_cell (i j : nat) (e : ent) (t : table) : table :=
  match nth_error t i with
  | Some r => set_nth i (set_nth j e r) t
  | None => t
  end.

(** A comparison sort as the standard library specifies it ([slice::sort_by]): from a comparison
    and a vector to the sorted vector and the list of comparisons it made.  The algorithm is not
    part of /repo; theorems quantify over every [sorter] meeting the contract in
    Spec/SortSpec.v. *)
Definition sorter := forall A : Type, (A -> A -> comparison) -> list A -> list A * list (A * A).

(** [Table::sort(col, cmp)] *)
Definition table_sort (so : sorter) (cmp : ent -> ent -> comparison) (col : nat) (t : table) : table :=
  match t with
  | [] => []
  | h :: d => h :: fst (so row (fun a b => cmp (nth col a ENil) (nth col b ENil)) d)
  end.
