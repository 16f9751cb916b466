(** Collecting the definition files below a directory, by partition. *)
From Coq Require Import String List ZArith NArith Bool Arith.
From Verif Require Import Model.Base.
Import ListNotations.
Set Implicit Arguments.

(** What is found under a name.  [File None] is a file which cannot be read as text.  An item of a listing is [None] where
    the iterator of [read_dir] gives an error; a directory which cannot be opened is [Dir [None]].  Links are followed by
    [is_file] and [is_dir], so they appear as what they lead to; links leading back up are left out (the tree is finite). *)
Inductive node :=
| File (text : option str)
| Dir (items : list (option (str * node)))
| Other.
Notation listing := (list (option (str * node))).

(** [Path::extension], [Path::file_stem] (std/src/path.rs [rsplit_file_at_dot]): cut at the last dot.  No extension if there is
    no dot or nothing before it. *)
Fixpoint cut_last_dot (s : str) : option (str * str) :=
  match s with
  | [] => None
  | c :: s' =>
      match cut_last_dot s' with
      | Some (a, b) => Some (c :: a, b)
      | None => if (c =? 46)%N then Some ([], s') else None
      end
  end.
Definition split_ext (name : str) : str * option str :=
  if str_eqb name (lit "..") then (name, None) else
  match cut_last_dot name with
  | Some ([], _) | None => (name, None)
  | Some (a, b) => (a, Some b)
  end.
Definition is_ogma (name : str) : bool :=
  match snd (split_ext name) with Some e => str_eqb e (lit "ogma") | None => false end.
(** [Path::with_extension("")] of a name *)
Definition stem (name : str) : str := fst (split_ext name).

(** The order of [PathBuf]: by components; [.] and [..] (the stems of [..ogma] and [...ogma]) come before names. *)
Definition comp_key (n : str) : str :=
  (if str_eqb n (lit ".") then 0%N else if str_eqb n (lit "..") then 1%N else 2%N) :: n.
Fixpoint path_cmp (a b : list str) : comparison :=
  match a, b with
  | [], [] => Eq
  | [], _ => Lt
  | _, [] => Gt
  | x :: a, y :: b => match str_cmp (comp_key x) (comp_key y) with Eq => path_cmp a b | c => c end
  end.

Section Build.
  Variable F : Type.
  (** ogma/src/lang/parse/file.rs [file]: any function of path (from the root) and text *)
  Variable parse : list str -> str -> res F.

  Definition fsmap := list (list str * list F).

  (** [BTreeMap::insert] of a map kept in order, with the value replaced; [BTreeMap::contains_key] *)
  Fixpoint bt_insert (k : list str) (v : list F) (m : fsmap) : option (list F) * fsmap :=
    match m with
    | [] => (None, [(k, v)])
    | (k', v') :: m' =>
        match path_cmp k k' with
        | Lt => (None, (k, v) :: m)
        | Eq => (Some v', (k', v) :: m')
        | Gt => let (o, m'') := bt_insert k v m' in (o, (k', v') :: m'')
        end
    end.
  Fixpoint bt_contains (k : list str) (m : fsmap) : bool :=
    match m with
    | [] => false
    | (k', _) :: m => match path_cmp k k' with Eq => true | _ => bt_contains k m end
    end.

  (** [assert!(map1.insert(k, v).is_none())] *)
  Definition insert_new (k : list str) (v : list F) (m : fsmap) : res fsmap :=
    match bt_insert k v m with (None, m) => Ok m | (Some _, _) => Panic end.

  (** ogma/src/lang/defs2/mod.rs:107-116 [parse_file]; error 2 is a failed read *)
  Definition parse_file (path : list str) (text : option str) : res F :=
    match text with Some t => parse path t | None => Err 2 end.

  Notation stack := (list (list str * listing)).

  (** mod.rs:56-70, the files beside each other at the root; error 0 is "IO error".  The stack has its top first. *)
  Fixpoint root_items (es : listing) (m : fsmap) (dirs : stack) : res (fsmap * stack) :=
    match es with
    | [] => Ok (m, dirs)
    | None :: _ => Err 0
    | Some (n, nd) :: es =>
        match is_ogma n, nd with
        | true, File text =>
            let? f := parse_file [n] text in
            let? m := insert_new [stem n] [f] m in
            root_items es m dirs
        | _, Dir items => root_items es m (([n], items) :: dirs)
        | _, _ => root_items es m dirs
        end
    end.

  (** mod.rs:90-99, the items of the directory [pt] *)
  Fixpoint dir_items (pt : list str) (es : listing) (v : list F) (dirs : stack) : res (list F * stack) :=
    match es with
    | [] => Ok (v, dirs)
    | None :: _ => Err 0
    | Some (n, nd) :: es =>
        match is_ogma n, nd with
        | true, File text =>
            let? f := parse_file (pt ++ [n]) text in
            dir_items pt es (v ++ [f]) dirs
        | _, Dir items => dir_items pt es v ((pt ++ [n], items) :: dirs)
        | _, _ => dir_items pt es v dirs
        end
    end.

  (** mod.rs:73-104 [while let Some(dir) = dirs.pop()]; error 1 is "defined adjacent and as a directory" *)
  Fixpoint walk (fuel : nat) (m : fsmap) (dirs : stack) : res fsmap :=
    match fuel with
    | O => Panic        (* out of fuel *)
    | S fuel =>
        match dirs with
        | [] => Ok m
        | (pt, items) :: dirs =>
            if bt_contains pt m then Err 1 else
            let? vd := dir_items pt items [] dirs in
            let (v, dirs) := vd in
            let? m := match v with [] => Ok m | _ => insert_new pt v m end in
            walk fuel m dirs
        end
    end.

  (** The number of directories below, and itself. *)
  Fixpoint dir_count (nd : node) : nat :=
    match nd with
    | Dir items =>
        S ((fix go (es : listing) : nat :=
             match es with
             | [] => 0
             | None :: es => go es
             | Some (_, nd) :: es => dir_count nd + go es
             end) items)
    | _ => 0
    end.

  (** mod.rs:43-105 [build_fs_map], given the listing of the root; never out of fuel (C59_total) *)
  Definition build_fs_map (es : listing) : res fsmap :=
    let? md := root_items es [] [] in
    walk (dir_count (Dir es)) (fst md) (snd md).
End Build.
