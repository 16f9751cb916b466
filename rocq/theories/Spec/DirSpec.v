(** File systems as seen through paths. *)
From Coq Require Import String List ZArith NArith Bool Arith.
From Verif Require Import Model.Base Model.SavePath Model.ShellDirs.
Import ListNotations.
Set Implicit Arguments.

(** The name of a file. *)
Definition name (n : str) : Prop := n <> [] /\ ~ In slash n /\ n <> dot /\ n <> dotdot.

(** Names with slashes between them. *)
Definition slashed (names : list str) : str :=
  match names with [] => [] | n :: ns => fold_left (fun t m => t ++ slash :: m) ns n end.

(** How paths are looked up on Unix, links included: [canon] gives the names from the file system root, without links, if there
    is such a file.  [cwd] is the directory of the process. *)
Record file_system (canon : str -> option (list str)) (cwd : list str) : Prop := {
  fs_names : forall p d, canon p = Some d -> Forall name d;
  fs_here : canon dot = Some cwd;
  fs_empty : canon [] = None;
  fs_dot : forall p, p <> [] -> is_absolute p = false -> canon (dot ++ slash :: p) = canon p;
  fs_again : forall p rel, canon p = Some (cwd ++ rel) -> rel <> [] -> canon (slashed rel) = Some (cwd ++ rel) }.

(** Where a tab is: at the start, or below the root by names; as text; and what a path leads to from there. *)
Inductive place := AtStart | Below (rel : list str).
Definition place_text (root : str) (pl : place) : str := match pl with AtStart => root | Below rel => slashed rel end.
Definition from (root : str) (pl : place) (p : str) : str :=
  path_join (match pl with AtStart => root | Below rel => path_join root (slashed rel) end) p.
(** A path leads to a file below the root. *)
Definition leads (canon : str -> option (list str)) (root : str) (pl : place) (p : str) (rel : list str) : Prop :=
  exists r, canon root = Some r /\ canon (from root pl p) = Some (r ++ rel).

(** A line entered in a tab, with the file system at that time. *)
Definition typed : Type := (str -> option (list str)) * nat * str.
(** A tab goes from place to place, by the [cd]s entered in it that lead below the root, and by nothing else. *)
Inductive goes (root : str) (tab : nat) : place -> list typed -> place -> Prop :=
| goes_none : forall pl, goes root tab pl [] pl
| goes_to : forall canon p rel pl es pl', p <> [] -> leads canon root pl p rel -> goes root tab (Below rel) es pl' ->
    goes root tab pl ((canon, tab, lit "cd " ++ p) :: es) pl'
| goes_not : forall canon p pl es pl', (forall rel, ~ leads canon root pl p rel) -> goes root tab pl es pl' ->
    goes root tab pl ((canon, tab, lit "cd " ++ p) :: es) pl'
| goes_nowhere : forall canon pl es pl', goes root tab pl es pl' -> goes root tab pl ((canon, tab, lit "cd ") :: es) pl'
| goes_line : forall canon line pl es pl', (forall p, line <> lit "cd " ++ p) -> goes root tab pl es pl' -> goes root tab pl ((canon, tab, line) :: es) pl'
| goes_tab : forall canon t line pl es pl', t <> tab -> goes root tab pl es pl' -> goes root tab pl ((canon, t, line) :: es) pl'.

(** The root is the directory of the process, written as a dot, or an absolute path. *)
Definition usable (root : str) : Prop := root = dot \/ is_absolute root = true.
(** Lines entered in the model of the shell, and the shell at its start. *)
Definition typed_of (e : entry) : typed := (e_canon e, e_tab e, e_line e).
Definition sound_entry (e : entry) : Prop := exists cwd, file_system (e_canon e) cwd.
Definition start (root : str) : dirs := Dirs root [].
