(** The partition tree: what a tree of named things is, and what paths, exports and imports denote. *)
From Coq Require Import String List NArith Arith Bool Sorted.
From Verif Require Import Model.Base Model.TableCrate Model.Parts.
Import ListNotations.

(** The documented contract of [slice::partition_point]. *)
Definition partition_contract (pp : forall A : Type, (A -> bool) -> list A -> nat) : Prop :=
  forall (A : Type) (f : A -> bool) (a b : list A),
    (forall x, In x a -> f x = true) -> (forall x, In x b -> f x = false) -> pp A f (a ++ b) = length a.

Inductive kind := KBoundary | KType | KImpl.
Definition kind_of (n : pnode) : kind :=
  match pn_item n with PBoundary _ _ => KBoundary | PType _ => KType | PImpl _ => KImpl end.
Definition kind_no (k : kind) : nat := match k with KBoundary => 0 | KType => 1 | KImpl => 2 end.

(** Node [i] is of kind [k], has name [s] and parent [p]. *)
Definition node_is (ps : parts) (i : nat) (k : kind) (p : option nat) (s : str) : Prop :=
  exists n, nth_error ps i = Some n /\ kind_of n = k /\ pn_parent n = p /\ pn_name n = s.
Definition named (ps : parts) (i : nat) (s : str) : Prop := exists k p, node_is ps i k p s.
Definition is_kind (ps : parts) (i : nat) (k : kind) : Prop := exists p s, node_is ps i k p s.
Definition child_of (ps : parts) (i b : nat) : Prop := exists k s, node_is ps i k (Some b) s.

Definition exports_of (ps : parts) (b : nat) (l : list nat) : Prop :=
  exists n cs, nth_error ps b = Some n /\ pn_item n = PBoundary l cs.
Definition imports_of (ps : parts) (i : nat) (l : list nat) : Prop :=
  exists n, nth_error ps i = Some n /\ (pn_item n = PType l \/ pn_item n = PImpl l).

(** Partition names: a letter or underscore, then letters, digits, underscores and dashes. *)
Definition letter (c : N) : Prop := (65 <= c <= 90)%N \/ (97 <= c <= 122)%N.
Definition digit (c : N) : Prop := (48 <= c <= 57)%N.
Definition good_name (s : str) : Prop :=
  exists f cs, s = f :: cs /\ (f = 95%N \/ letter f) /\ forall c, In c cs -> c = 45%N \/ c = 95%N \/ letter c \/ digit c.

(** A tree: three roots; every other node has a parent, a boundary with a smaller id; children lists are right; names
    are unique among boundaries and among types of a parent; exports are children, no boundaries. *)
Record tree (ps : parts) : Prop := {
  t_roots : 3 <= length ps /\ forall i n, i < 3 -> nth_error ps i = Some n -> pn_parent n = None /\ kind_of n = KBoundary;
  t_parent : forall i n, 3 <= i -> nth_error ps i = Some n ->
               exists p, pn_parent n = Some p /\ p < i /\ is_kind ps p KBoundary;
  t_children : forall b n e cs, nth_error ps b = Some n -> pn_item n = PBoundary e cs ->
               StronglySorted lt cs /\ forall i, In i cs <-> child_of ps i b;
  t_unique : forall i j k p s, k <> KImpl -> node_is ps i k (Some p) s -> node_is ps j k (Some p) s -> i = j;
  t_names : forall i p s, node_is ps i KBoundary (Some p) s -> good_name s;
  t_exports : forall b l i, exports_of ps b l -> In i l -> child_of ps i b /\ ~ is_kind ps i KBoundary;
  t_imports : forall j l i, imports_of ps j l -> In i l -> i < length ps
}.

(** The boundary a path from the root leads to. *)
Inductive at_path (ps : parts) : list str -> nat -> Prop :=
| at_root : at_path ps [] 0
| at_child : forall p b c s, at_path ps p b -> node_is ps c KBoundary (Some b) s -> at_path ps (p ++ [s]) c.

(** Nodes keep their id, kind, parent and name. *)
Definition grows (ps ps' : parts) : Prop := forall i k p s, node_is ps i k p s -> node_is ps' i k p s.

(** How many nodes of kind [k] named [s] there are below [b]. *)
Definition kind_eqb (a b : kind) : bool := kind_no a =? kind_no b.
Definition count_nodes (ps : parts) (k : kind) (b : nat) (s : str) : nat :=
  length (filter (fun n => kind_eqb (kind_of n) k && match pn_parent n with Some p => p =? b | None => false end
                           && str_eqb (pn_name n) s) ps).
(** How often the files given for [path] define a name. *)
Definition path_eqb (a b : list str) : bool := if list_eq_dec str_eq_dec a b then true else false.
Definition count_name (s : str) (l : list str) : nat := length (filter (str_eqb s) l).
Definition defined (names : pfile -> list str) (fsmap : list (list str * list pfile)) (path : list str) : list str :=
  flat_map (fun pf => if path_eqb (fst pf) path then flat_map names (snd pf) else []) fsmap.

(** ** Directives *)
Definition file_imports (f : pfile) : list import :=
  flat_map (fun d => match d with DImport l => l | _ => [] end) (f_directives f).
Definition file_exports (f : pfile) : list str :=
  flat_map (fun d => match d with DExport l => l | _ => [] end) (f_directives f).

(** A path with [..] from a boundary to a boundary. *)
Inductive leads (ps : parts) : nat -> list str -> nat -> Prop :=
| leads_nil : forall b, leads ps b [] b
| leads_up : forall b p path c s, node_is ps b KBoundary (Some p) s -> leads ps p path c -> leads ps b (lit ".." :: path) c
| leads_down : forall b x path c d, x <> lit ".." -> node_is ps d KBoundary (Some b) x -> leads ps d path c -> leads ps b (x :: path) c.

Section Globs.
  Variable glob : str -> option (str -> bool).
  Definition matches (pat s : str) : Prop := exists m, glob pat = Some m /\ m s = true.

  Definition import_base (this : nat) (im : import) : nat :=
    match im_prefix im with PxNone => this | PxRoot => 0 | PxPlugins => 2 end.
  (** [x] is brought into [this] by [im]: it is below the boundary named, matches, is not [this] itself, and is a
      boundary or exported there. *)
  Definition imported (ps : parts) (this : nat) (im : import) (x : nat) : Prop :=
    exists b k s, leads ps (import_base this im) (im_path im) b /\ node_is ps x k (Some b) s /\ matches (im_glob im) s /\
      x <> this /\ (k = KBoundary \/ exists l, exports_of ps b l /\ In x l).
  (** [x] is an item below [b] that the export pattern names. *)
  Definition exportable (ps : parts) (b : nat) (pat : str) (x : nat) : Prop :=
    exists k s, node_is ps x k (Some b) s /\ k <> KBoundary /\ matches pat s.
End Globs.

(** ** Finding by path: from a set of nodes, one segment at a time. *)
Inductive walks (ps : parts) : nat -> list str -> nat -> Prop :=
| walks_nil : forall x, walks ps x [] x
| walks_up : forall x p path y k s, node_is ps x k (Some p) s -> walks ps p path y -> walks ps x (lit ".." :: path) y
| walks_down : forall x c seg path y k, seg <> lit ".." -> node_is ps c k (Some x) seg -> walks ps c path y -> walks ps x (seg :: path) y.

(** The first segment of a relative path names the parent, a child, or an import. *)
Definition starts (ps : parts) (within : nat) (imports : list nat) (seg : str) (x : nat) : Prop :=
  (seg = lit ".." /\ exists k s, node_is ps within k (Some x) s) \/
  (seg <> lit ".." /\ ((exists k, node_is ps x k (Some within) seg) \/ (In x imports /\ named ps x seg))).

(** Segments joined by slashes. *)
Fixpoint join (segs : list str) : str :=
  match segs with [] => [] | [s] => s | s :: rest => s ++ 47%N :: join rest end.
Definition no_slash (s : str) : Prop := ~ In 47%N s.

(** ** What a set of files has to satisfy: good partition names, and no type defined twice in a partition. *)
Definition acceptable (ps : parts) (fsmap : list (list str * list pfile)) : Prop :=
  (forall k fs, In (k, fs) fsmap -> Forall good_name k) /\
  (forall path, NoDup (defined f_types fsmap path)) /\
  (forall path s b i, In s (defined f_types fsmap path) -> at_path ps path b -> ~ node_is ps i KType (Some b) s).

(** The files in the order they are read, each with its path. *)
Definition all_files (fsmap : list (list str * list pfile)) : list (list str * pfile) :=
  flat_map (fun pf => map (pair (fst pf)) (snd pf)) fsmap.

(** Where the items of each file went. *)
Record placed := Placed { pl_path : list str; pl_file : pfile; pl_boundary : nat; pl_ids : list nat }.
Definition file_items (f : pfile) : list (kind * str) := map (pair KType) (f_types f) ++ map (pair KImpl) (f_impls f).
Definition placed_ok (ps : parts) (x : placed) : Prop :=
  at_path ps (pl_path x) (pl_boundary x) /\
  Forall2 (fun i ks => node_is ps i (fst ks) (Some (pl_boundary x)) (snd ks)) (pl_ids x) (file_items (pl_file x)).

Definition exported (ps : parts) (b i : nat) : Prop := exists l, exports_of ps b l /\ In i l.

(** [ps'] is [ps] with the partitions and items of the files added; [al] says where each file's items went. *)
Record built (ps : parts) (fsmap : list (list str * list pfile)) (ps' : parts) (al : list placed) : Prop := {
  b_files : map (fun x => (pl_path x, pl_file x)) al = all_files fsmap;
  b_tree : tree ps';
  b_grows : grows ps ps';
  b_paths : forall path, (exists b, at_path ps' path b) <->
              (exists b, at_path ps path b) \/ exists k fs rest, In (k, fs) fsmap /\ k = path ++ rest;
  b_items : forall x, In x al -> placed_ok ps' x;
  b_distinct : NoDup (concat (map pl_ids al));
  b_new : forall i k p s, node_is ps' i k p s -> length ps <= i ->
            if kind_eqb k KBoundary then exists path, at_path ps' path i else In i (concat (map pl_ids al));
  b_fresh : forall i, In i (concat (map pl_ids al)) -> length ps <= i
}.

Section Links.
  Variable so : sorter.
  Variable glob : str -> option (str -> bool).

  (** A list of ids that some earlier state turned into a set. *)
  Definition id_set (ps : parts) (l : list nat) : Prop :=
    exists ps0 ids, grows ps0 ps /\ (forall i, In i ids -> i < length ps0) /\ from_vec so ps0 ids = Ok l.

  (** Exports are what was exported before and what the patterns of the files of a partition name. *)
  Definition exports_done (ps ps' : parts) (al : list placed) : Prop :=
    forall b i, exported ps' b i <-> exported ps b i \/
      exists x pat, In x al /\ pl_boundary x = b /\ In pat (file_exports (pl_file x)) /\ exportable glob ps' b pat i.
  (** The items of a file import what the directives of the file name; older items import what they did. *)
  Definition imports_done (ps ps' : parts) (al : list placed) : Prop :=
    (forall x i, In x al -> In i (pl_ids x) -> exists l, imports_of ps' i l /\ id_set ps' l /\
       forall y, In y l <-> exists im, In im (file_imports (pl_file x)) /\ imported glob ps' (pl_boundary x) im y) /\
    (forall j l, imports_of ps j l -> imports_of ps' j l).
  (** Every pattern names something. *)
  Definition exports_match (ps : parts) (al : list placed) : Prop :=
    forall x pat, In x al -> In pat (file_exports (pl_file x)) -> exists i, exportable glob ps (pl_boundary x) pat i.
  Definition imports_match (ps : parts) (al : list placed) : Prop :=
    forall x im, In x al -> pl_ids x <> [] -> In im (file_imports (pl_file x)) -> exists y, imported glob ps (pl_boundary x) im y.
End Links.
