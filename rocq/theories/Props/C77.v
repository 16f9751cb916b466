(** C77: what a name of an op or type means in a file. *)
From Coq Require Import String List NArith Arith Lia Sorted Permutation.
From Verif Require Import Model.Base Model.Value Model.TableCrate Model.Parts Model.DefGet Spec.SortSpec Spec.PartsSpec Spec.DefGetSpec
  Proofs.SortProofs Proofs.PartsFinalProofs Proofs.PartsSamples Proofs.DefGetProofs.
Import ListNotations.

(** A path gives the op that is for exactly the type of the input if just one is found, else the op for any type; two for that type or two for
    any type are ambiguous, whatever their order. *)
Theorem C77_op : forall so pp, sort_contract so -> partition_contract pp -> forall ps, tree ps -> sets so ps ->
  forall (I : Type) (impls : nat -> option (option ty * I)) t i o s segs, i < length ps -> path_ok s segs -> (forall y, is_kind ps y KImpl -> impls y <> None) ->
  forall a, get_impl so pp ps impls (path_text o s segs) t i = Ok a <->
    exists y, body_of impls y a /\
      ~ several (fun y => finds ps KImpl i o s segs y /\ exactly impls t y) /\ ~ several (fun y => finds ps KImpl i o s segs y /\ general impls y) /\
      (just (fun y => finds ps KImpl i o s segs y /\ exactly impls t y) y \/
       (none (fun y => finds ps KImpl i o s segs y /\ exactly impls t y) /\ just (fun y => finds ps KImpl i o s segs y /\ general impls y) y)).
Proof. exact op_meant. Qed.
Print Assumptions C77_op.
Theorem C77_op_ambiguous : forall so pp, sort_contract so -> partition_contract pp -> forall ps, tree ps -> sets so ps ->
  forall (I : Type) (impls : nat -> option (option ty * I)) t i o s segs, i < length ps -> path_ok s segs -> (forall y, is_kind ps y KImpl -> impls y <> None) ->
  get_impl so pp ps impls (path_text o s segs) t i = Err ambiguous <->
    several (fun y => finds ps KImpl i o s segs y /\ exactly impls t y) \/ several (fun y => finds ps KImpl i o s segs y /\ general impls y).
Proof. exact op_ambiguous. Qed.
Print Assumptions C77_op_ambiguous.
Theorem C77_op_missing : forall so pp, sort_contract so -> partition_contract pp -> forall ps, tree ps -> sets so ps ->
  forall (I : Type) (impls : nat -> option (option ty * I)) t i o s segs, i < length ps -> path_ok s segs -> (forall y, is_kind ps y KImpl -> impls y <> None) ->
  get_impl so pp ps impls (path_text o s segs) t i = Err not_found <->
    none (fun y => finds ps KImpl i o s segs y /\ exactly impls t y) /\ none (fun y => finds ps KImpl i o s segs y /\ general impls y).
Proof. exact op_missing. Qed.
Print Assumptions C77_op_missing.
(** There is no other outcome. *)
Theorem C77_op_answers : forall so pp, sort_contract so -> partition_contract pp -> forall ps, tree ps -> sets so ps ->
  forall (I : Type) (impls : nat -> option (option ty * I)) t i o s segs, i < length ps -> path_ok s segs -> (forall y, is_kind ps y KImpl -> impls y <> None) ->
  get_impl so pp ps impls (path_text o s segs) t i <> Panic /\
  forall e, get_impl so pp ps impls (path_text o s segs) t i = Err e -> e = ambiguous \/ e = not_found.
Proof. exact op_answers. Qed.
Print Assumptions C77_op_answers.

(** A path to a type gives the type if just one is found. *)
Theorem C77_type : forall so pp, sort_contract so -> partition_contract pp -> forall ps, tree ps -> sets so ps ->
  forall types i o s segs, i < length ps -> path_ok s segs -> (forall y, is_kind ps y KType -> types y <> None) ->
  forall t, get_ty so pp ps types (path_text o s segs) i = Ok t <-> exists y, just (finds ps KType i o s segs) y /\ types y = Some t.
Proof. exact ty_meant. Qed.
Print Assumptions C77_type.
Theorem C77_type_ambiguous : forall so pp, sort_contract so -> partition_contract pp -> forall ps, tree ps -> sets so ps ->
  forall types i o s segs, i < length ps -> path_ok s segs -> (forall y, is_kind ps y KType -> types y <> None) ->
  get_ty so pp ps types (path_text o s segs) i = Err ambiguous <-> several (finds ps KType i o s segs).
Proof. exact ty_ambiguous. Qed.
Print Assumptions C77_type_ambiguous.
Theorem C77_type_missing : forall so pp, sort_contract so -> partition_contract pp -> forall ps, tree ps -> sets so ps ->
  forall types i o s segs, i < length ps -> path_ok s segs -> (forall y, is_kind ps y KType -> types y <> None) ->
  get_ty so pp ps types (path_text o s segs) i = Err not_found <-> none (finds ps KType i o s segs).
Proof. exact ty_missing. Qed.
Print Assumptions C77_type_missing.
Theorem C77_type_answers : forall so pp, sort_contract so -> partition_contract pp -> forall ps, tree ps -> sets so ps ->
  forall types i o s segs, i < length ps -> path_ok s segs -> (forall y, is_kind ps y KType -> types y <> None) ->
  get_ty so pp ps types (path_text o s segs) i <> Panic /\ forall e, get_ty so pp ps types (path_text o s segs) i = Err e -> e = ambiguous \/ e = not_found.
Proof. exact ty_answers. Qed.
Print Assumptions C77_type_answers.

Theorem C77_contains : forall so pp, sort_contract so -> partition_contract pp -> forall ps, tree ps -> sets so ps ->
  forall i o s segs, i < length ps -> path_ok s segs -> exists c d,
    contains_impl so pp ps (path_text o s segs) i = Ok c /\ contains_type so pp ps (path_text o s segs) i = Ok d /\
    (c = true <-> exists y, finds ps KImpl i o s segs y) /\ (d = true <-> exists y, finds ps KType i o s segs y).
Proof. exact contains_spec. Qed.
Print Assumptions C77_contains.

(** The definitions made from files are such trees; a name in a file means what its partition or its imports have of that name. *)
Theorem C77_files : forall so glob hash_order, sort_contract so -> (forall m, Permutation m (hash_order m)) ->
  forall fsmap ps, extend_root so glob hash_order parts_new fsmap = Ok ps -> tree ps /\ sets so ps.
Proof. exact files_sets. Qed.
Print Assumptions C77_files.
Theorem C77_in_file : forall so glob hash_order, sort_contract so -> (forall m, Permutation m (hash_order m)) ->
  forall fsmap ps, extend_root so glob hash_order parts_new fsmap = Ok ps ->
  exists al, built parts_new fsmap ps al /\ forall x i k s y, In x al -> In i (pl_ids x) -> s <> lit ".." ->
    (finds ps k i Here s [] y <-> is_kind ps y k /\ named ps y s /\ (child_of ps y (pl_boundary x) \/ exists im, In im (file_imports (pl_file x)) /\ imported glob ps (pl_boundary x) im y)).
Proof. exact in_file. Qed.
Print Assumptions C77_in_file.

(** ** Examples *)
(** In [shapes] node 10 is [main] of [app], which imports the nodes 5 to 8: two types and two ops [area]. *)
Definition bodies (y : nat) : option (option ty * nat) := Some (if Nat.eqb y 6 then Some TNum else if Nat.eqb y 8 then None else Some TStr, y).
Definition same_bodies (y : nat) : option (option ty * nat) := Some (None, y).
Definition tys (y : nat) : option ty := Some (TDef (TyDef (if Nat.eqb y 5 then lit "Point" else lit "Line") (TProduct []))).
Example C77_example : sort_contract isort /\ partition_contract prefix_len /\ path_ok (lit "area") [] /\ path_ok (lit "..") [lit "shapes"; lit "flat"; lit "Line"] /\
  (forall y, bodies y <> None) /\ (forall y, tys y <> None) /\
  match extend_root isort sample_glob same_order parts_new shapes with
  | Ok ps => 10 < length ps /\
      get_impl isort prefix_len ps bodies (path_text Here (lit "area") []) TNum 10 = Ok 6 /\
      get_impl isort prefix_len ps bodies (path_text Here (lit "area") []) TStr 10 = Ok 8 /\
      get_impl isort prefix_len ps same_bodies (path_text Here (lit "area") []) TStr 10 = Err ambiguous /\
      get_impl isort prefix_len ps bodies (path_text FromRoot (lit "area") []) TStr 10 = Err not_found /\
      get_ty isort prefix_len ps tys (path_text Here (lit "..") [lit "shapes"; lit "flat"; lit "Line"]) 10 = Ok (TDef (TyDef (lit "Line") (TProduct []))) /\
      get_ty isort prefix_len ps tys (path_text FromRoot (lit "Line") []) 10 = Err not_found /\
      contains_impl isort prefix_len ps (path_text FromRoot (lit "app") [lit "main"]) 0 = Ok true
  | _ => False
  end.
Proof.
  assert (NS : forall s, (forallb (fun c => negb (N.eqb c 47)) s = true) -> no_slash s).
  { intros s H I. pose proof (proj1 (forallb_forall _ _) H _ I) as X. discriminate X. }
  split; [exact isort_contract|]. split; [exact prefix_len_contract|].
  split; [split; [discriminate|repeat constructor; apply NS; reflexivity]|]. split; [split; [discriminate|repeat constructor; apply NS; reflexivity]|].
  split; [discriminate|]. split; [discriminate|]. vm_compute. auto 12 with arith.
Qed.

(** Looked up from a partition (not an item of it) a name is searched in the partition above: its own items are not found. *)
Theorem C77_partition_refuted : exists ps b y s, extend_root isort sample_glob same_order parts_new shapes = Ok ps /\ node_is ps b KBoundary (Some 0) (lit "app") /\
  node_is ps y KImpl (Some b) s /\ contains_impl isort prefix_len ps s b = Ok false /\ contains_impl isort prefix_len ps (lit "app/" ++ s) b = Ok true.
Proof.
  eexists _, 9, 10, (lit "main"). split; [vm_compute; reflexivity|]. split; [eexists; split; [reflexivity|repeat split]|]. split; [eexists; split; [reflexivity|repeat split]|]. vm_compute. auto.
Qed.
(** From the roots of the shell and the plugins names are searched in the root: what is in them is not found. *)
Theorem C77_roots_refuted : exists ps y s, add_impl parts_new plugins_id s = Ok (y, ps) /\ node_is ps y KImpl (Some plugins_id) s /\ contains_impl isort prefix_len ps s plugins_id = Ok false.
Proof. eexists _, 3, (lit "f"). split; [vm_compute; reflexivity|]. split; [eexists; split; [reflexivity|repeat split]|]. vm_compute. reflexivity. Qed.
(** Types are compared by name: an op for a type is also used for another type of that name in another partition. *)
Theorem C77_same_name_refuted : exists ps (impls : nat -> option (option ty * nat)) s i t u, extend_root isort sample_glob same_order parts_new shapes = Ok ps /\ t <> u /\
  impls 6 = Some (Some t, 6) /\ get_impl isort prefix_len ps impls s u i = Ok 6.
Proof.
  eexists _, (fun y => Some (if Nat.eqb y 6 then Some (TDef (TyDef (lit "T") (TProduct []))) else Some TNil, y)), (lit "area"), 10, _, (TDef (TyDef (lit "T") (TProduct [(lit "x", TNum)]))).
  split; [vm_compute; reflexivity|]. split; [|split; [reflexivity|vm_compute; reflexivity]]. discriminate.
Qed.
