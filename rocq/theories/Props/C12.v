(** C12: fold and fold-while are left folds over data rows. *)
From Coq Require Import String List ZArith NArith.
From Verif Require Import Model.Base Model.Value Model.TableCrate Model.TableOps
  Spec.TableSpec Spec.FoldSpec Spec.OpsSpec Proofs.FoldProofs Proofs.Samples.
Import ListNotations.

(** [S] is any state the evaluations read and change; so their number and order are observable. *)
Theorem C12_fold : forall S (seed : S -> res value * S) acc (t : table) s,
  match seed s with
  | (Ok x, s0) =>
      match fold_table seed acc t s with
      | (Ok y, s') => chain acc 1 x s0 (length (data t)) y s'
      | (Err e, s') => exists k y sk, k < length (data t) /\ chain acc 1 x s0 k y sk /\ acc sk y (1 + k) = (Err e, s')
      | (Panic, s') => exists k y sk, k < length (data t) /\ chain acc 1 x s0 k y sk /\ acc sk y (1 + k) = (Panic, s')
      end
  | r => fold_table seed acc t s = r
  end.
Proof. exact fold_table_correct. Qed.
Print Assumptions C12_fold.

Theorem C12_fold_while : forall S (seed : S -> res value * S) pred acc (t : table) s,
  match seed s with
  | (Ok x, s0) =>
      match fold_while_table seed pred acc t s with
      | (Ok y, s') => guarded_chain pred acc 1 x s0 (length (data t)) y s' \/
           exists k sk, k < length (data t) /\ guarded_chain pred acc 1 x s0 k y sk /\ stops_false pred sk y (1 + k) s'
      | (Err e, s') => exists k y sk, k < length (data t) /\ guarded_chain pred acc 1 x s0 k y sk /\
           stops_err pred acc sk y (1 + k) e s'
      | (Panic, s') => exists k y sk, k < length (data t) /\ guarded_chain pred acc 1 x s0 k y sk /\
           stops_panic pred acc sk y (1 + k) s'
      end
  | r => fold_while_table seed pred acc t s = r
  end.
Proof. exact fold_while_table_correct. Qed.
Print Assumptions C12_fold_while.

(** The state is the list of rows visited, latest first. *)
Example C12_example :
  let acc := fun (s : list nat) (v : value) i =>
    (match v with VNum z => Ok (VNum (z + num_of_Z (Z.of_nat i))) | _ => Err 1 end, i :: s) in
  let pred := fun (s : list nat) (v : value) (i : nat) =>
    (match v with VNum z => Ok (VBool (z <? num_of_Z 3)%Z) | _ => Err 1 end, s) in
  fold_table (fun s => (Ok (num 0), s)) acc stock [] = (Ok (num 6), [3; 2; 1]) /\
  fold_while_table (fun s => (Ok (num 0), s)) pred acc stock [] = (Ok (num 3), [2; 1]).
Proof. split; vm_compute; reflexivity. Qed.
