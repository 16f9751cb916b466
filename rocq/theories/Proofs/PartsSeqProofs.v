From Coq Require Import List Permutation.
From Verif Require Import Model.Base Model.TableCrate Model.Parts Spec.SortSpec Spec.PartsSpec
  Proofs.PartSetProofs Proofs.PartsTreeProofs Proofs.PartsUseProofs Proofs.PartsFinalProofs.
Import ListNotations.

Theorem seq_tree : forall so glob hash_order, sort_contract so -> (forall m, Permutation m (hash_order m)) ->
  forall maps, match rfold (extend_root so glob hash_order) maps parts_new with
               | Ok ps => tree ps
               | Err _ => True
               | Panic => False
               end.
Proof.
  intros so glob ho HS HH maps. assert (T := new_tree). revert T. generalize parts_new as ps.
  induction maps as [|m maps IH]; intros ps T; cbn [rfold]; auto.
  destruct (extend_root so glob ho ps m) as [ps'|e|] eqn:E; cbn [rbind]; auto.
  - apply IH. destruct (extend_built so glob ho HS HH ps m ps' T E) as (_ & al & B). apply B.
  - exact (extend_no_panic so glob ho HS HH ps m T E).
Qed.
Theorem tree_paths : forall ps, tree ps ->
  (forall p b b', at_path ps p b -> at_path ps p b' -> b = b') /\ (forall p p' b, at_path ps p b -> at_path ps p' b -> p = p').
Proof.
  intros ps T. split.
  - intros p b b' H H'. exact (at_path_det _ _ _ T H _ H').
  - intros p p' b H H'. exact (at_path_inj _ _ _ T H _ H').
Qed.
Theorem contains_iff : forall s i, contains_id s i = true <-> In i s.
Proof. exact contains_id_in. Qed.
