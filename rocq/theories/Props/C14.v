(** C14: rev is an involution and dedup removes just adjacent repeats. *)
From Coq Require Import String List ZArith NArith.
From Verif Require Import Model.Base Model.Value Model.TableCrate Model.TableOps
  Spec.TableSpec Spec.ColSpec Spec.RunSpec Spec.OpsSpec Proofs.RevProofs Proofs.Samples.
Import ListNotations.

Theorem C14_rev_involution : forall cols (t : table), rev_table cols (rev_table cols t) = t.
Proof. exact rev_table_invol. Qed.
Print Assumptions C14_rev_involution.

Theorem C14_rev_rows : forall (t : table),
  header (rev_table false t) = header t /\ data (rev_table false t) = rev (data t).
Proof. exact rev_table_rows. Qed.
Print Assumptions C14_rev_rows.

Theorem C14_rev_cols : forall (t : table), rev_table true t = map (@rev ent) t.
Proof. exact rev_table_cols. Qed.
Print Assumptions C14_rev_cols.

Theorem C14_rev_string : forall s, rev_str (rev_str s) = s /\ forall i, i < length s ->
  nth_error (rev_str s) i = nth_error s (length s - 1 - i).
Proof. exact rev_str_correct. Qed.
Print Assumptions C14_rev_string.

Theorem C14_dedup_string : forall s, is_dedup eq s (dedup_str s).
Proof. exact dedup_str_correct. Qed.
Print Assumptions C14_dedup_string.

(** The header is one of the rows. *)
Theorem C14_dedup_table : forall names (t : table), rectangular t ->
  match dedup_table names t with
  | Ok t' => exists cols,
      match names with
      | Some ns => Forall2 (column_named t) ns cols
      | None => cols = seq 0 (cols_len t)
      end /\ is_dedup (agree_on cols) t t'
  | Err _ => exists ns n, names = Some ns /\ In n ns /\ no_column_named t n
  | Panic => False
  end.
Proof. exact dedup_table_correct. Qed.
Print Assumptions C14_dedup_table.

Example C14_example :
  dedup_str (lit "aabbbca") = lit "abca" /\
  dedup_table (Some [lit "name"]) [[S' "name"; S' "v"]; [S' "a"; n' 1]; [S' "a"; n' 2]; [S' "b"; n' 3]; [S' "a"; n' 4]]
    = Ok [[S' "name"; S' "v"]; [S' "a"; n' 1]; [S' "b"; n' 3]; [S' "a"; n' 4]].
Proof. split; vm_compute; reflexivity. Qed.

(** A first data row that agrees with the header on the chosen columns is lost. *)
Theorem C14_dedup_header_refuted : exists names t t', rectangular t /\ dedup_table names t = Ok t' /\
  length (data t) = 1 /\ data t' = [].
Proof.
  exists (Some [lit "name"]), [[S' "name"; S' "v"]; [S' "name"; n' 1]]. eexists.
  split; [apply rect_b_ok; reflexivity|]. split; [vm_compute; reflexivity|]. split; reflexivity.
Qed.
Print Assumptions C14_dedup_header_refuted.
