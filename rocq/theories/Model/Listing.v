(** [ls]. *)
From Coq Require Import String List ZArith NArith Bool Arith.
From Verif Require Import Model.Base Model.Value Model.TableCrate.
Import ListNotations.

(** io.rs:47-64 [ls_table_intrinsic] *)
Definition ls_table (t : table) : res table :=
  match get_row t 0 with
  | None => Err 20
  | Some r => Ok (table_from (map (fun x => [x]) (o (lit "header") :: r)))
  end.

(** What the file system says of something in a directory: its kind, its size, when it was modified (as [fmt_systime], io.rs:169-173, has it). *)
Record meta := Meta { m_dir : bool; m_file : bool; m_len : N; m_modified : option str }.
(** A name is text, or it is not and ends, after a dot, in something that may be. *)
Record dirent := Dirent { d_name : str + option str; d_meta : option meta }.

(** [Path::extension]: what is behind the last dot, unless that is where the name starts *)
Fixpoint after_dot (s : str) : option (str * str) :=
  match s with
  | [] => None
  | c :: s => match after_dot s with
              | Some (a, b) => Some (c :: a, b)
              | None => if N.eqb c 46 then Some ([], s) else None
              end
  end.
Definition extension (s : str) : option str :=
  if str_eqb s [46; 46]%N then None else
  match after_dot s with
  | Some ([], _) => None
  | Some (_, b) => Some b
  | None => None
  end.
Definition or_nil (x : option str) : ent := match x with Some x => o x | None => ENil end.
(** io.rs:131-159: the row of an item *)
Definition item_row (d : dirent) : row :=
  let name := o (match d_name d with inl x => x | inr _ => [] end) in
  match d_meta d with
  | Some m => [name; if m_dir m then o (lit "dir") else if m_file m then o (lit "file") else ENil; ENum (num_of_Z (Z.of_N (m_len m)));
               or_nil (match d_name d with inl x => extension x | inr x => x end); or_nil (m_modified m)]
  | None => [name]
  end.
Definition dir_header : row := [o (lit "name"); o (lit "type"); o (lit "size"); o (lit "ext"); o (lit "modified")].
(** io.rs:163: names are compared, which are all text *)
Definition name_cmp (a b : ent) : comparison := match a, b with EObj (VStr a), EObj (VStr b) => str_cmp a b | _, _ => Eq end.
(** io.rs:113-166.  [None] where reading an item fails; these are left out. *)
Definition make_dir_table (so : sorter) (items : option (list (option dirent))) : res table :=
  match items with
  | None => Err 40
  | Some items =>
      let t := fold_left (fun t i => match i with Some d => add_row t (item_row d) | None => t end) items (table_from [dir_header]) in
      Ok (table_sort so name_cmp 0 t)
  end.
