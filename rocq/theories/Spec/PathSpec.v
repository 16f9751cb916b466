(** Where a path leads in a file system without links. *)
From Coq Require Import List ZArith NArith Bool.
From Verif Require Import Model.Base Model.SavePath.
Import ListNotations.

(** Directories are paths from the file system root. *)
Definition step_to (d : list str) (c : component) : list str :=
  match c with
  | RootDir => []
  | CurDir => d
  | ParentDir => removelast d
  | Normal n => d ++ [n]
  end.
Definition walk (d : list str) (cs : list component) : list str := fold_left step_to cs d.

Definition below (root target : list str) : Prop := exists rest, target = root ++ rest.

Definition normals (cs : list component) : nat :=
  length (filter (fun c => match c with Normal _ => true | _ => false end) cs).
Definition parents (cs : list component) : nat :=
  length (filter (fun c => match c with ParentDir => true | _ => false end) cs).

(** No prefix climbs above the start. *)
Definition never_above (cs : list component) : Prop :=
  forall a b, cs = a ++ b -> parents a <= normals a.

Definition plain (c : component) : Prop := c <> RootDir.

(** The path as the code joins it. *)
Definition full_path (root wd p : str) : str := path_join (path_join root wd) p.
