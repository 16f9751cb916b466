From Coq Require Import List Bool Arith Lia NArith ZArith.
From Verif Require Import Model.Base Model.Value Model.TableCrate Model.RowPar Model.TableOps
  Spec.TableSpec Spec.ColSpec Proofs.ListLemmas Proofs.TableBasics.
Import ListNotations.
Set Implicit Arguments.

Lemma hdr_position_spec : forall n (h : row),
  match hdr_position n h with
  | Some c => nth_error h c = Some (EObj (VStr n)) /\ (forall j, j < c -> nth_error h j <> Some (EObj (VStr n)))
  | None => forall j, nth_error h j <> Some (EObj (VStr n))
  end.
Proof.
  induction h as [|e h IH]; cbn; [intros []; discriminate|].
  assert (N : e <> EObj (VStr n) ->
    match option_map S (hdr_position n h) with
    | Some c => nth_error (e :: h) c = Some (EObj (VStr n)) /\
                (forall j, j < c -> nth_error (e :: h) j <> Some (EObj (VStr n)))
    | None => forall j, nth_error (e :: h) j <> Some (EObj (VStr n))
    end).
  { intros Ne. destruct (hdr_position n h) as [c|]; cbn.
    - destruct IH as [H1 H2]. split; auto. intros [|j] Hj; cbn; [congruence|]. apply H2. lia.
    - intros [|j]; cbn; [congruence|]. apply IH. }
  destruct e as [|z|v]; try (apply N; discriminate).
  destruct v; try (apply N; discriminate).
  destruct (str_eqb_spec s n) as [->|Ns].
  - cbn. split; auto. intros; lia.
  - apply N. congruence.
Qed.

Lemma col_idx_spec : forall t n,
  match col_idx t n with
  | Ok c => column_named t n c
  | Err _ => no_column_named t n
  | Panic => False
  end.
Proof.
  intros t n. destruct t as [|h d]; cbn.
  - intros c (h & d & E & _). discriminate.
  - pose proof (hdr_position_spec n h) as H. destruct (hdr_position n h) as [c|].
    + exists h, d. tauto.
    + intros c (h' & d' & [= <- <-] & E & _). eapply H; eauto.
Qed.

Lemma col_idx_ok : forall t n c, col_idx t n = Ok c -> column_named t n c.
Proof. intros t n c H. pose proof (col_idx_spec t n). now rewrite H in H0. Qed.

Lemma col_idx_err : forall t n e, col_idx t n = Err e -> no_column_named t n.
Proof. intros t n c H. pose proof (col_idx_spec t n). now rewrite H in H0. Qed.

Lemma col_idx_no_panic : forall t n, col_idx t n <> Panic.
Proof. intros t n H. pose proof (col_idx_spec t n). now rewrite H in H0. Qed.

Lemma column_named_fun : forall t n c d, column_named t n c -> column_named t n d -> c = d.
Proof.
  intros t n c d (h & r & -> & E1 & M1) (h' & r' & [= <- <-] & E2 & M2).
  destruct (Nat.lt_trichotomy c d) as [L|[L|L]]; auto; exfalso; [eapply M2|eapply M1]; eauto.
Qed.

Lemma col_idx_iff : forall t n c, col_idx t n = Ok c <-> column_named t n c.
Proof.
  intros t n c; split; [apply col_idx_ok|]. intros H. pose proof (col_idx_spec t n) as K.
  destruct (col_idx t n) as [d|e|].
  - f_equal. eapply column_named_fun; eauto.
  - exfalso. eapply K; eauto.
  - destruct K.
Qed.

Lemma column_named_width : forall t n c, column_named t n c -> c < cols_len t.
Proof. intros t n c (h & d & -> & E & _). cbn. apply nth_error_Some. congruence. Qed.

Lemma resolve_indices_spec : forall names t,
  match resolve_indices names t with
  | Ok cols => Forall2 (column_named t) names cols
  | Err _ => exists n, In n names /\ no_column_named t n
  | Panic => False
  end.
Proof.
  unfold resolve_indices. induction names as [|n names IH]; intros t; cbn; [constructor|].
  pose proof (col_idx_spec t n) as H. destruct (col_idx t n) as [c|e|]; cbn.
  - specialize (IH t). destruct (rmapM (col_idx t) names); cbn; auto.
    destruct IH as (m & Hm & Nm). exists m; auto.
  - exists n; auto.
  - auto.
Qed.
