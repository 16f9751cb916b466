(** C45: the module tree stays a tree with unique names. *)
From Coq Require Import String List NArith Arith Permutation.
From Verif Require Import Model.Base Model.TableCrate Model.Parts Spec.SortSpec Spec.PartsSpec
  Proofs.SortProofs Proofs.PartsTreeProofs Proofs.PartsFinalProofs Proofs.PartsSeqProofs Proofs.PartsSamples.
Import ListNotations.

(** Any sequence of file sets: the result, if there is one, is a tree; nothing panics. *)
Theorem C45_tree : forall so glob hash_order, sort_contract so -> (forall m, Permutation m (hash_order m)) ->
  forall maps, match rfold (extend_root so glob hash_order) maps parts_new with
               | Ok ps => tree ps
               | Err _ => True
               | Panic => False
               end.
Proof. exact seq_tree. Qed.
Print Assumptions C45_tree.

(** One file set: old nodes stay, and what is new is the partitions on the paths and the items of the files. *)
Theorem C45_built : forall so glob hash_order, sort_contract so -> (forall m, Permutation m (hash_order m)) ->
  forall ps fsmap ps', tree ps -> extend_root so glob hash_order ps fsmap = Ok ps' ->
  acceptable ps fsmap /\ exists al, built ps fsmap ps' al.
Proof. exact extend_built. Qed.
Print Assumptions C45_built.

(** A bad partition name, or a second type of a name in a partition, fails. *)
Theorem C45_rejects : forall so glob hash_order, sort_contract so -> (forall m, Permutation m (hash_order m)) ->
  forall ps fsmap, tree ps -> ~ acceptable ps fsmap -> exists e, extend_root so glob hash_order ps fsmap = Err e.
Proof. exact extend_rejects. Qed.
Print Assumptions C45_rejects.

(** A path leads to at most one partition, and a partition has at most one path. *)
Theorem C45_paths : forall ps, tree ps ->
  (forall p b b', at_path ps p b -> at_path ps p b' -> b = b') /\ (forall p p' b, at_path ps p b -> at_path ps p' b -> p = p').
Proof. exact tree_paths. Qed.
Print Assumptions C45_paths.

Theorem C45_start : tree parts_new.
Proof. exact new_tree. Qed.
Print Assumptions C45_start.

Example C45_example :
  sort_contract isort /\ (forall m, Permutation m (same_order m)) /\ tree parts_new /\
  match extend_root isort sample_glob same_order parts_new shapes with
  | Ok ps => map (fun n => (pn_name n, pn_parent n)) (skipn 3 ps) =
             [(lit "shapes", Some 0); (lit "flat", Some 3); (lit "Point", Some 4); (lit "area", Some 4);
              (lit "Line", Some 4); (lit "area", Some 4); (lit "app", Some 0); (lit "main", Some 9)]
  | _ => False
  end /\
  extend_root isort sample_glob same_order parts_new (shapes ++ [([lit "shapes"; lit "flat"], [PFile [] [lit "Line"] []])]) = Err 4 /\
  extend_root isort sample_glob same_order parts_new [([lit "9lives"], [])] = Err 3.
Proof.
  split; [exact isort_contract|]. split; [intros m; apply Permutation_refl|]. split; [exact new_tree|]. vm_compute. auto.
Qed.

(** Implementations are not checked: two of one name may exist in a partition. *)
Theorem C45_impls_unique_refuted : exists maps ps i j b s, i <> j /\
  rfold (extend_root isort sample_glob same_order) maps parts_new = Ok ps /\ node_is ps i KImpl (Some b) s /\ node_is ps j KImpl (Some b) s.
Proof.
  eexists [shapes], _, 6, 8, 4, (lit "area"). split; [discriminate|]. split; [vm_compute; reflexivity|].
  split; (eexists; split; [reflexivity|]; vm_compute; auto).
Qed.
Print Assumptions C45_impls_unique_refuted.
