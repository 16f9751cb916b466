From Coq Require Import String List Bool Arith Lia NArith ZArith.
From Verif Require Import Model.Base Model.Value Model.TableCrate Model.RowPar Model.TableOps
  Spec.TableSpec Spec.ColSpec Proofs.ListLemmas Proofs.TableBasics.
Import ListNotations.
Set Implicit Arguments.

Lemma nthN_nth : forall A (l : list A) n, nthN n l = nth_error l (N.to_nat n).
Proof.
  induction l as [|x l IH]; intros n; cbn.
  - now destruct (N.to_nat n).
  - destruct (N.eqb_spec n 0) as [->|H]; [reflexivity|].
    rewrite IH. rewrite <- (N.succ_pred n) at 2 by auto. rewrite N2Nat.inj_succ. reflexivity.
Qed.

Theorem nth_str_correct : forall v n s, cnv_num_to_usize v = Ok n ->
  match nth_str v s with
  | Ok r => exists c, nth_error s (N.to_nat n) = Some c /\ r = [c]
  | Err _ => (N.of_nat (length s) <= n)%N
  | Panic => False
  end.
Proof.
  intros v n s H. unfold nth_str. rewrite H. cbn [rbind]. rewrite nthN_nth.
  destruct (nth_error s (N.to_nat n)) as [c|] eqn:E; [eauto|].
  apply nth_error_None in E. lia.
Qed.

(** Row [n] (the first data row is number 0) is handed to the expression, in both build modes. *)
Theorem nth_table_correct : forall checked v n expr (t : table),
  cnv_num_to_usize v = Ok n -> (n < usize_max)%N ->
  match nth_error (data t) (N.to_nat n) with
  | Some _ => nth_table checked v expr t = expr (1 + N.to_nat n)
  | None => exists e, nth_table checked v expr t = Err e
  end.
Proof.
  intros checked v n expr t H Hn. unfold nth_table. rewrite H. cbn [rbind]. unfold usize_succ.
  rewrite (proj2 (N.ltb_lt _ _) Hn). cbn [rbind]. unfold rows_len.
  destruct (nth_error (data t) (N.to_nat n)) as [r|] eqn:E.
  - assert (N.to_nat n < length (data t)) by (apply nth_error_Some; congruence).
    assert (length t = S (length (data t))) as L by (destruct t; cbn in *; lia).
    destruct (N.leb_spec (N.of_nat (length t)) (n + 1)); [lia|].
    f_equal. lia.
  - apply nth_error_None in E.
    destruct (N.leb_spec (N.of_nat (length t)) (n + 1)); [eauto|].
    destruct t; cbn in *; lia.
Qed.

Theorem table_range_correct : forall from to,
  header (table_range from to) = [[EObj (VStr (lit "i"))]] /\
  data (table_range from to) =
    map (fun k => [ENum (num_of_Z (Z.of_N from + Z.of_nat k))]) (seq 0 (N.to_nat to - N.to_nat from)).
Proof.
  intros from to. unfold table_range. rewrite table_from_rect.
  - split; [reflexivity|]. cbn [data]. rewrite N2Nat.inj_sub. apply map_ext. intros k. do 3 f_equal. lia.
  - apply rectangular_cons. intros r Hr. apply in_map_iff in Hr. destruct Hr as (k & <- & _). reflexivity.
Qed.
