From Coq Require Import String List Bool Arith Lia NArith ZArith.
From Verif Require Import Spec.OpsSpec Model.Base Model.Value Model.TableCrate Model.RowPar Model.TableOps
  Spec.TableSpec Spec.FoldSpec.
Import ListNotations.
Set Implicit Arguments.

Lemma fold_loop_spec : forall S (acc : S -> value -> nat -> res value * S) n i x s,
  match fold_loop acc (seq i n) x s with
  | (Ok y, s') => chain acc i x s n y s'
  | (Err e, s') => exists k y sk, k < n /\ chain acc i x s k y sk /\ acc sk y (i + k) = (Err e, s')
  | (Panic, s') => exists k y sk, k < n /\ chain acc i x s k y sk /\ acc sk y (i + k) = (Panic, s')
  end.
Proof.
  induction n as [|n IH]; intros i x s; cbn; [constructor|].
  destruct (acc s x i) as [[x1|e|] s1] eqn:E.
  - specialize (IH (Datatypes.S i) x1 s1). destruct (fold_loop _ _ _ _) as [[y|e|] s'].
    + econstructor; eauto.
    + destruct IH as (k & y & sk & Hk & HC & HE). exists (Datatypes.S k), y, sk. split; [lia|].
      split; [econstructor; eauto|]. now rewrite Nat.add_succ_r.
    + destruct IH as (k & y & sk & Hk & HC & HE). exists (Datatypes.S k), y, sk. split; [lia|].
      split; [econstructor; eauto|]. now rewrite Nat.add_succ_r.
  - exists 0, x, s. split; [lia|]. split; [constructor|]. now rewrite Nat.add_0_r.
  - exists 0, x, s. split; [lia|]. split; [constructor|]. now rewrite Nat.add_0_r.
Qed.

Lemma data_length : forall (t : table), length (data t) = rows_len t - 1.
Proof. intros [|h d]; cbn; lia. Qed.

Theorem fold_table_correct : forall S (seed : S -> res value * S) acc (t : table) s,
  match seed s with
  | (Ok x, s0) =>
      match fold_table seed acc t s with
      | (Ok y, s') => chain acc 1 x s0 (length (data t)) y s'
      | (Err e, s') => exists k y sk, k < length (data t) /\ chain acc 1 x s0 k y sk /\ acc sk y (1 + k) = (Err e, s')
      | (Panic, s') => exists k y sk, k < length (data t) /\ chain acc 1 x s0 k y sk /\ acc sk y (1 + k) = (Panic, s')
      end
  | r => fold_table seed acc t s = r
  end.
Proof.
  intros S seed acc t s. unfold fold_table. destruct (seed s) as [[x|e|] s0]; auto.
  rewrite data_length. apply fold_loop_spec.
Qed.


Lemma fold_while_loop_spec : forall S (pred acc : S -> value -> nat -> res value * S) n i x s,
  match fold_while_loop pred acc (seq i n) x s with
  | (Ok y, s') => guarded_chain pred acc i x s n y s' \/
                  exists k sk, k < n /\ guarded_chain pred acc i x s k y sk /\ stops_false pred sk y (i + k) s'
  | (Err e, s') => exists k y sk, k < n /\ guarded_chain pred acc i x s k y sk /\ stops_err pred acc sk y (i + k) e s'
  | (Panic, s') => exists k y sk, k < n /\ guarded_chain pred acc i x s k y sk /\ stops_panic pred acc sk y (i + k) s'
  end.
Proof.
  induction n as [|n IH]; intros i x s; cbn; [left; constructor|].
  destruct (pred s x i) as [p s0] eqn:Ep.
  destruct p as [v|e|]; cbn.
  - destruct v as [|b| | | | | ]; cbn;
      try (exists 0, x, s; split; [lia|]; split; [constructor|]; rewrite Nat.add_0_r;
           right; left; eexists; split; [exact Ep|split; [discriminate|reflexivity]]).
    destruct b.
    + destruct (acc s0 x i) as [[x1|e|] s1] eqn:Ea.
      * specialize (IH (Datatypes.S i) x1 s1). destruct (fold_while_loop _ _ _ _ _) as [[y|e|] s'].
        { destruct IH as [IH|(k & sk & Hk & HC & HE)].
          - left. econstructor; eauto.
          - right. exists (Datatypes.S k), sk. split; [lia|]. split; [econstructor; eauto|]. now rewrite Nat.add_succ_r. }
        { destruct IH as (k & y & sk & Hk & HC & HE). exists (Datatypes.S k), y, sk. split; [lia|].
          split; [econstructor; eauto|]. now rewrite Nat.add_succ_r. }
        { destruct IH as (k & y & sk & Hk & HC & HE). exists (Datatypes.S k), y, sk. split; [lia|].
          split; [econstructor; eauto|]. now rewrite Nat.add_succ_r. }
      * exists 0, x, s. split; [lia|]. split; [constructor|]. rewrite Nat.add_0_r. right; right. eauto.
      * exists 0, x, s. split; [lia|]. split; [constructor|]. rewrite Nat.add_0_r. right. eauto.
    + right. exists 0, s. split; [lia|]. split; [constructor|]. now rewrite Nat.add_0_r.
  - exists 0, x, s. split; [lia|]. split; [constructor|]. rewrite Nat.add_0_r. left. exact Ep.
  - exists 0, x, s. split; [lia|]. split; [constructor|]. rewrite Nat.add_0_r. left. exact Ep.
Qed.

Theorem fold_while_table_correct : forall S (seed : S -> res value * S) pred acc (t : table) s,
  match seed s with
  | (Ok x, s0) =>
      match fold_while_table seed pred acc t s with
      | (Ok y, s') => guarded_chain pred acc 1 x s0 (length (data t)) y s' \/
           exists k sk, k < length (data t) /\ guarded_chain pred acc 1 x s0 k y sk /\ stops_false pred sk y (1 + k) s'
      | (Err e, s') => exists k y sk, k < length (data t) /\ guarded_chain pred acc 1 x s0 k y sk /\
           stops_err pred acc sk y (1 + k) e s'
      | (Panic, s') => exists k y sk, k < length (data t) /\ guarded_chain pred acc 1 x s0 k y sk /\
           stops_panic pred acc sk y (1 + k) s'
      end
  | r => fold_while_table seed pred acc t s = r
  end.
Proof.
  intros S seed pred acc t s. unfold fold_while_table. destruct (seed s) as [[x|e|] s0]; auto.
  rewrite data_length. apply fold_while_loop_spec.
Qed.
