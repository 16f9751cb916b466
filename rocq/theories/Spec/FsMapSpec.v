(** What the files below a directory define, without the walk over them. *)
From Coq Require Import String List NArith Permutation.
From Verif Require Import Model.Base Model.FsMap.
Import ListNotations.

(** The directory reached from the root by a path of names. *)
Inductive dir_at (es : listing) : list str -> listing -> Prop :=
| at_root : dir_at es [] es
| at_sub p ds n sub : dir_at es p ds -> In (Some (n, Dir sub)) ds -> dir_at es (p ++ [n]) sub.

(** The names of a listing; a file system does not give a name twice in a directory. *)
Definition names (ds : listing) : list str := flat_map (fun e => match e with Some (n, _) => [n] | None => [] end) ds.
Definition distinct (es : listing) : Prop := forall p ds, dir_at es p ds -> NoDup (names ds).

(** Names of definition files: something, then [.ogma]. *)
Definition ogma_name (n : str) : Prop := exists s, s <> [] /\ n = s ++ lit ".ogma".

(** The definition files of a listing, in its order. *)
Inductive ogma_files : listing -> list (str * option str) -> Prop :=
| of_nil : ogma_files [] []
| of_take n t ds fs : ogma_name n -> ogma_files ds fs -> ogma_files (Some (n, File t) :: ds) ((n, t) :: fs)
| of_skip e ds fs : (forall n t, e = Some (n, File t) -> ~ ogma_name n) -> ogma_files ds fs -> ogma_files (e :: ds) fs.

Section Parsed.
  Variable F : Type.
  Variable parse : list str -> str -> res F.

  (** [v] is the content of the file of name [fst nt] in the directory [p]. *)
  Definition parsed (p : list str) (nt : str * option str) (v : F) : Prop :=
    exists t, snd nt = Some t /\ parse (p ++ [fst nt]) t = Ok v.

  (** The partitions: a file [s.ogma] at the root is the partition [s]; a directory below the root with definition files is
      the partition of its path, with all of these files. *)
  Inductive partition_at (es : listing) : list str -> list F -> Prop :=
  | part_file s t v : s <> [] -> In (Some (s ++ lit ".ogma", File t)) es -> parsed [] (s ++ lit ".ogma", t) v ->
      partition_at es [s] [v]
  | part_dir p ds fs vs : p <> [] -> dir_at es p ds -> ogma_files ds fs -> fs <> [] -> Forall2 (parsed p) fs vs ->
      partition_at es p vs.

  (** Reasons not to load. *)
  Definition unreadable (es : listing) : Prop := exists p ds, dir_at es p ds /\ In None ds.
  Definition file_fails (es : listing) (e : nat) : Prop := exists p ds n t, dir_at es p ds /\ In (Some (n, File t)) ds /\
    ogma_name n /\ match t with Some s => parse (p ++ [n]) s = Err e | None => e = 2 end.
  Definition clash (es : listing) : Prop := exists s t sub, s <> [] /\
    In (Some (s ++ lit ".ogma", File t)) es /\ In (Some (s, Dir sub)) es.
End Parsed.

(** Equal but for the order in which directories list their items. *)
Inductive same_node : node -> node -> Prop :=
| same_file t : same_node (File t) (File t)
| same_other : same_node Other Other
| same_dir ds ds1 ds2 : Permutation ds ds1 -> Forall2 same_item ds1 ds2 -> same_node (Dir ds) (Dir ds2)
with same_item : option (str * node) -> option (str * node) -> Prop :=
| same_none : same_item None None
| same_some n a b : same_node a b -> same_item (Some (n, a)) (Some (n, b)).
