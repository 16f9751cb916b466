(** C48: the shell's history. *)
From Coq Require Import String List NArith.
From Verif Require Import Model.Base Model.Shell Spec.ShellSpec Proofs.HistoryProofs.
Import ListNotations.

(** After any operations the history holds the last 100 lines entered, oldest first.  Moving back
    and forward is part of the operations, so it never changes what is stored. *)
Theorem C48_keeps_recent : forall ops,
  h_items (fold_left history_step ops history_new) = lastn 100 (entered ops).
Proof. exact history_keeps_recent. Qed.
Print Assumptions C48_keeps_recent.

(** A position always points at a stored line, which is what is shown. *)
Theorem C48_in_range : forall ops i, h_idx (fold_left history_step ops history_new) = Some i ->
  entered ops <> [] -> exists l, nth_error (lastn 100 (entered ops)) i = Some l /\
  history_current (fold_left history_step ops history_new) = Some l.
Proof. exact history_in_range. Qed.
Print Assumptions C48_in_range.

(** Going back then forward, or forward then back, returns to the same place. *)
Theorem C48_back_fwd : forall ops,
  let h := fold_left history_step ops history_new in
  history_fwd (history_back h) = h /\ history_back (history_fwd h) = h.
Proof. exact history_back_fwd. Qed.
Print Assumptions C48_back_fwd.

Theorem C48_n_back_n_fwd : forall ops n,
  let h := fold_left history_step ops history_new in
  iterate n history_fwd (iterate n history_back h) = h.
Proof. exact history_n_back_n_fwd. Qed.
Print Assumptions C48_n_back_n_fwd.

(** After a line is entered, pressing back shows the stored lines from the newest to the oldest, and
    then the empty line. *)
Theorem C48_recalls : forall ops line k,
  let h := fold_left history_step (ops ++ [HAdd line]) history_new in
  let recent := lastn 100 (entered ops ++ [line]) in
  (k < length recent -> history_current (iterate (S k) history_back h) = nth_error (rev recent) k) /\
  history_current (iterate (S (length recent)) history_back h) = None.
Proof. exact history_recalls. Qed.
Print Assumptions C48_recalls.

(** Finding: a line entered twice in a row is stored twice, and an empty line is stored too. *)
Theorem C48_distinct_refuted : exists ops i l,
  let h := fold_left history_step ops history_new in
  nth_error (h_items h) i = Some l /\ nth_error (h_items h) (S i) = Some l /\ l = [].
Proof. exists [HAdd []; HAdd []], 0, []. vm_compute. auto. Qed.
Print Assumptions C48_distinct_refuted.

Example C48_example :
  let ops := [HAdd (lit "ls"); HBack; HAdd (lit "len"); HBack; HBack; HFwd; HAdd (lit "ls")] in
  let h := fold_left history_step ops history_new in
  h_items h = [lit "ls"; lit "len"; lit "ls"] /\
  history_current h = None /\ history_current (history_back (history_back h)) = Some (lit "len") /\
  history_current (history_back (history_back (history_back (history_back h)))) = None.
Proof. vm_compute. auto. Qed.

(** The limit bites. *)
Example C48_example_limit :
  let ops := map (fun n => HAdd [N.of_nat n]) (seq 0 105) ++ [HBack] in
  let h := fold_left history_step ops history_new in
  length (h_items h) = 100 /\ hd_error (h_items h) = Some [5%N] /\ history_current h = Some [104%N].
Proof. vm_compute. auto. Qed.
