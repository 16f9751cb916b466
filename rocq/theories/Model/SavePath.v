(** Paths of [save] and [open] and their checks against leaving the root directory. *)
From Coq Require Import List ZArith NArith Bool.
From Verif Require Import Model.Base.
Import ListNotations.
Set Implicit Arguments.

(** std::path on Unix. *)
Inductive component := RootDir | CurDir | ParentDir | Normal (name : str).

Definition slash : N := 47%N.
Definition dot : str := [46%N].
Definition dotdot : str := [46%N; 46%N].

(** Pieces between slashes. *)
Fixpoint split_slash (s : str) : list str :=
  match s with
  | [] => [[]]
  | c :: s => if (c =? slash)%N then [] :: split_slash s
              else match split_slash s with l :: ls => (c :: l) :: ls | [] => [[c]] end
  end.

Definition is_absolute (p : str) : bool := match p with c :: _ => (c =? slash)%N | [] => false end.

(** [Path::components]: empty pieces and inner dots vanish; a leading dot of a relative path stays. *)
Definition body_component (s : str) : list component :=
  if str_eqb s [] || str_eqb s dot then [] else if str_eqb s dotdot then [ParentDir] else [Normal s].
Definition components (p : str) : list component :=
  if is_absolute p then RootDir :: flat_map body_component (split_slash p)
  else match split_slash p with
       | s :: ss => (if str_eqb s dot then [CurDir] else body_component s) ++ flat_map body_component ss
       | [] => []
       end.

(** [Path::join] *)
Definition path_join (a b : str) : str :=
  if is_absolute b then b
  else match rev a with
       | [] => b
       | c :: _ => if (c =? slash)%N then a ++ b else a ++ slash :: b
       end.

Definition i32_min : Z := (-2147483648)%Z.
Definition i32_max : Z := 2147483647%Z.

(** i32 addition: panics on overflow when checked (debug build), wraps otherwise (release build). *)
Definition i32_add (checked : bool) (a b : Z) : res Z :=
  let s := (a + b)%Z in
  if (i32_min <=? s)%Z && (s <=? i32_max)%Z then Ok s
  else if checked then Panic else Ok ((s - i32_min) mod 4294967296 + i32_min)%Z.

(** ogma/src/lang/impls/intrinsics/io.rs:308-322: the fold over the components and its test. *)
Definition component_weight (c : component) : Z :=
  match c with RootDir => i32_min | CurDir => 0 | ParentDir => -1 | Normal _ => 1 end.
Fixpoint weigh (checked : bool) (x : Z) (cs : list component) : res Z :=
  match cs with
  | [] => Ok x
  | c :: cs => let? y := i32_add checked x (component_weight c) in weigh checked y cs
  end.

(** io.rs:302-324: the path written to, if accepted.  Error code 0 is "cannot move above root directory". *)
Definition save_path (checked : bool) (root wd p : str) : res str :=
  let q := path_join (path_join root wd) p in
  let? x := weigh checked 0 (components q) in
  if (x <=? 0)%Z then Err 0 else Ok q.

(** [Path::strip_prefix] on canonical (absolute, normalised) paths. *)
Fixpoint strip_prefix (pre l : list str) : option (list str) :=
  match pre, l with
  | [], _ => Some l
  | x :: pre, y :: l => if str_eqb x y then strip_prefix pre l else None
  | _ :: _, [] => None
  end.

(** io.rs:19-35 [scrub_filepath].  [canon] is [Path::canonicalize]: the absolute path without links, if the
    file exists.  If the root has none, "." is used, which is no prefix of an absolute path.
    Error code 1 is the error of canonicalize. *)
Definition scrub_filepath (canon : str -> option (list str)) (root wd p : str) : res (list str) :=
  match canon (path_join (path_join root wd) p) with
  | None => Err 1
  | Some w =>
      match canon root with
      | None => Err 0
      | Some r => match strip_prefix r w with Some x => Ok x | None => Err 0 end
      end
  end.
