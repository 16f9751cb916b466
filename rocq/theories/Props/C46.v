(** C46: imports bring in exported items only, and lookups by path find what the path names. *)
From Coq Require Import String List NArith Arith Sorted Permutation.
From Verif Require Import Model.Base Model.TableCrate Model.Parts Spec.SortSpec Spec.PartsSpec
  Proofs.SortProofs Proofs.PartsFinalProofs Proofs.PartsSamples.
Import ListNotations.

(** When files are accepted: each export and import pattern found something ([imports_match]: for files with items),
    exports are what the patterns name, and the items of a file import exactly what [imported] says. *)
Theorem C46_links : forall so glob hash_order, sort_contract so -> (forall m, Permutation m (hash_order m)) ->
  forall ps fsmap ps', tree ps -> extend_root so glob hash_order ps fsmap = Ok ps' ->
  exists al, built ps fsmap ps' al /\ exports_match glob ps' al /\ imports_match glob ps' al /\
    exports_done glob ps ps' al /\ imports_done so glob ps ps' al.
Proof. exact extend_links. Qed.
Print Assumptions C46_links.

(** Acceptable files are refused only for a pattern that finds nothing. *)
Theorem C46_refused : forall so glob hash_order, sort_contract so -> (forall m, Permutation m (hash_order m)) ->
  forall ps fsmap e, tree ps -> acceptable ps fsmap -> extend_root so glob hash_order ps fsmap = Err e ->
  exists ps1 al, built ps fsmap ps1 al /\
    (~ exports_match glob ps1 al \/ (exports_done glob ps ps1 al /\ ~ imports_match glob ps1 al)).
Proof. exact extend_fails. Qed.
Print Assumptions C46_refused.

(** A path that begins with a slash is looked up from the root, with two from the plugins. *)
Theorem C46_find_absolute : forall so pp, sort_contract so ->
  forall ps within imports s segs (plug : bool), tree ps -> s <> [] -> Forall no_slash (s :: segs) ->
  exists r, pfind so pp ps within imports (47%N :: (if plug then [47%N] else []) ++ join (s :: segs)) = Ok r /\
    StronglySorted lt r /\ forall y, In y r <-> walks ps (if plug then 2 else 0) (s :: segs) y.
Proof. exact find_absolute. Qed.
Print Assumptions C46_find_absolute.

(** Any other path starts from the parent, the children, or the imports. *)
Theorem C46_find_relative : forall so pp, sort_contract so -> partition_contract pp ->
  forall ps within imports s segs, tree ps -> is_kind ps within KBoundary -> id_set so ps imports ->
  s <> [] -> Forall no_slash (s :: segs) ->
  exists r, pfind so pp ps within imports (join (s :: segs)) = Ok r /\ StronglySorted lt r /\
    forall y, In y r <-> exists x, starts ps within imports s x /\ walks ps x segs y.
Proof. exact find_relative. Qed.
Print Assumptions C46_find_relative.

Theorem C46_find_kinds : forall so pp ps within imports path l, tree ps -> pfind so pp ps within imports path = Ok l ->
  (forall i, In i l -> i < length ps) ->
  exists ts is, find_types so pp ps within imports path = Ok ts /\ find_impls so pp ps within imports path = Ok is /\
    (forall y, In y ts <-> In y l /\ is_kind ps y KType) /\ (forall y, In y is <-> In y l /\ is_kind ps y KImpl).
Proof. exact find_kind. Qed.
Print Assumptions C46_find_kinds.

Example C46_example :
  sort_contract isort /\ partition_contract prefix_len /\
  match extend_root isort sample_glob same_order parts_new shapes with
  | Ok ps =>
      map pn_item (skipn 9 ps) = [PBoundary [] [10]; PImpl [7; 5; 6; 8]] /\
      pfind isort prefix_len ps 9 [7; 5; 6; 8] (lit "area") = Ok [6; 8] /\
      pfind isort prefix_len ps 9 [7; 5; 6; 8] (lit "../shapes/flat/Line") = Ok [7] /\
      pfind isort prefix_len ps 9 [7; 5; 6; 8] (lit "/app/main") = Ok [10] /\
      find_types isort prefix_len ps 4 [] (lit "Point") = Ok [5] /\
      pfind isort prefix_len ps 9 [7; 5; 6; 8] (lit "//app") = Ok []
  | _ => False
  end /\
  extend_root isort sample_glob same_order parts_new
    (shapes ++ [([lit "bad"], [PFile [DImport [rel [lit ".."] (lit "nothing")]] [lit "T"] []])]) = Err 9 /\
  extend_root isort sample_glob same_order parts_new [([lit "bad"], [PFile [DExport [lit "nothing"]] [] []])] = Err 6 /\
  extend_root isort sample_glob same_order parts_new [([lit "bad"], [PFile [DExport [lit "["]] [] []])] = Err 5.
Proof. split; [exact isort_contract|]. split; [exact prefix_len_contract|]. vm_compute. auto 10. Qed.

(** An import in a file without items is not looked at, so one that finds nothing goes unreported. *)
Theorem C46_import_unchecked_refuted : exists fsmap ps, extend_root isort sample_glob same_order parts_new fsmap = Ok ps /\
  exists k f im, In (k, [f]) fsmap /\ In im (file_imports f) /\ forall this x, ~ imported sample_glob ps this im x.
Proof.
  exists [([lit "app"], [PFile [DImport [Import PxRoot [lit "lib"] (lit "*")]] [] []])]. eexists. split; [vm_compute; reflexivity|].
  eexists _, _, (Import PxRoot [lit "lib"] (lit "*")). split; [now left|]. split; [now left|]. intros this x (b & k & s & L & _).
  cbn in L. inversion L; subst.
  match goal with H : node_is _ _ _ _ _ |- _ => destruct H as (n & E & K & P & N) end.
  destruct d as [|[|[|[|d]]]]; cbn in E; try (injection E as <-; discriminate). destruct d; discriminate.
Qed.
Print Assumptions C46_import_unchecked_refuted.
