(** C47: name sets are sound and complete. *)
From Coq Require Import String List NArith Arith Sorted.
From Verif Require Import Model.Base Model.TableCrate Model.Parts Spec.SortSpec Spec.PartsSpec
  Proofs.SortProofs Proofs.PartSetProofs Proofs.PartsSeqProofs Proofs.PartsSamples.
Import ListNotations.

Theorem C47_members : forall so ps ids, sort_contract so -> (forall i, In i ids -> i < length ps) ->
  exists s, from_vec so ps ids = Ok s /\ NoDup s /\ forall i, In i s <-> In i ids.
Proof. exact set_members. Qed.
Print Assumptions C47_members.

Theorem C47_contains : forall s i, contains_id s i = true <-> In i s.
Proof. exact contains_iff. Qed.
Print Assumptions C47_contains.

(** [ps'] is any later state of the tree, in which the members keep their names and kinds. *)
Theorem C47_find : forall so pp ps ps' ids s name, sort_contract so -> partition_contract pp ->
  (forall i, In i ids -> i < length ps) -> (forall i k p t, In i ids -> node_is ps i k p t -> node_is ps' i k p t) ->
  from_vec so ps ids = Ok s ->
  exists r, set_find pp ps' s name = Ok r /\
    (forall i, In i r <-> In i ids /\ named ps' i name) /\
    StronglySorted (fun i j => exists ki kj, is_kind ps' i ki /\ is_kind ps' j kj /\
                                 (kind_no ki < kind_no kj \/ (ki = kj /\ i < j))) r.
Proof. exact set_lookup. Qed.
Print Assumptions C47_find.

Definition demo : parts :=
  parts_new ++ [PNode (lit "b") (Some 0) (PImpl []); PNode (lit "a") (Some 0) (PImpl []); PNode (lit "b") (Some 0) (PType []);
                PNode (lit "b") (Some 0) (PBoundary [] []); PNode (lit "c") (Some 0) (PImpl []); PNode (lit "b") (Some 0) (PImpl [])].
Example C47_example :
  sort_contract isort /\ partition_contract prefix_len /\ (forall i, In i [8; 3; 5; 7; 3; 6; 4] -> i < length demo) /\
  from_vec isort demo [8; 3; 5; 7; 3; 6; 4] = Ok [4; 6; 5; 3; 8; 7] /\
  set_find prefix_len demo [4; 6; 5; 3; 8; 7] (lit "b") = Ok [6; 5; 3; 8] /\
  set_find prefix_len demo [4; 6; 5; 3; 8; 7] (lit "bb") = Ok [].
Proof.
  split; [exact isort_contract|]. split; [exact prefix_len_contract|]. split.
  - intros i H. repeat (destruct H as [<-|H]; [cbn; auto with arith|]). destruct H.
  - vm_compute. auto.
Qed.
