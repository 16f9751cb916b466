(** C54: positions counted in UTF-16 units. *)
From Coq Require Import String List ZArith NArith.
From Verif Require Import Model.Base Model.Utf Model.Lsp Spec.LspSpec Proofs.LspProofs.
Import ListNotations.

(** Every position gives an index on a character boundary of the text. *)
Theorem C54_boundary : forall bc s p, exists x y, s = x ++ y /\ pos_to_idx bc s p = byte_len x.
Proof. exact pos_boundary. Qed.
Print Assumptions C54_boundary.

(** The position of each place in the text gives the index of exactly that place.  Places inside a line end
    (after its carriage return) are the exception. *)
Theorem C54_exact : forall bc pre post p, position_after pre p -> not_after_cr pre post ->
  pos_to_idx bc (pre ++ post) p = byte_len pre.
Proof. exact pos_exact. Qed.
Print Assumptions C54_exact.

(** Hence a change of a range replaces exactly the text between its ends. *)
Theorem C54_edit : forall bc pre mid post p q new,
  position_after pre p -> position_after (pre ++ mid) q ->
  not_after_cr pre (mid ++ post) -> not_after_cr (pre ++ mid) post ->
  apply_change bc (Change (Some (p, q)) new) (pre ++ mid ++ post) = Ok (pre ++ new ++ post).
Proof. exact edit_exact. Qed.
Print Assumptions C54_edit.

Theorem C54_whole : forall bc new s, apply_change bc (Change None new) s = Ok new.
Proof. exact whole_exact. Qed.
Print Assumptions C54_whole.

(** A column which is no character start means the end of the line. *)
Theorem C54_between : forall l n, (forall a b, l = a ++ b -> utf16_len a <> n) -> linech_to_idx l n = byte_len l.
Proof. exact linech_miss. Qed.
Print Assumptions C54_between.

(** A change panics exactly when its range is reversed after conversion. *)
Theorem C54_panics : forall bc p q new s, apply_change bc (Change (Some (p, q)) new) s = Panic <->
  pos_to_idx bc s q < pos_to_idx bc s p.
Proof. exact change_panics. Qed.
Print Assumptions C54_panics.

(** Two lines, the second with a character outside the basic plane before the place. *)
Example C54_example :
  let pre := lit "ab" ++ [13; 10; 128512; 233]%N in
  let post := lit "x" ++ [10]%N in
  position_after pre (Pos 1 3) /\ not_after_cr pre post /\ pos_to_idx true (pre ++ post) (Pos 1 3) = 10 /\
  apply_change true (Change (Some (Pos 1 2, Pos 1 4)) (lit "!")) (pre ++ post) = Ok (lit "ab" ++ [13; 10; 128512; 33; 10]%N).
Proof.
  cbv zeta. split.
  - exists [128512; 233]%N. split; [|reflexivity]. split; [cbn; intuition discriminate|].
    right. exists (lit "ab" ++ [13%N]). reflexivity.
  - split; [|vm_compute; auto]. intros _. cbn. discriminate.
Qed.

(** Finding: a range from the middle of a surrogate pair to a later character of the line panics although
    its start is before its end. *)
Theorem C54_surrogate_refuted : exists s p q new, p_line p = p_line q /\ p_char p < p_char q /\
  p_char q < utf16_len s /\ apply_change false (Change (Some (p, q)) new) s = Panic.
Proof.
  exists [128512; 120; 121; 122]%N, (Pos 0 1), (Pos 0 2), []. vm_compute. repeat split; auto.
Qed.
Print Assumptions C54_surrogate_refuted.

(** Finding: the place between carriage return and line feed goes to before the carriage return. *)
Theorem C54_crlf_refuted : exists pre post p, position_after pre p /\ pos_to_idx false (pre ++ post) p <> byte_len pre.
Proof.
  exists [13%N], [10%N], (Pos 0 1). split; [|vm_compute; discriminate].
  exists [13%N]. split; [|reflexivity]. split; [cbn; intuition discriminate|auto].
Qed.
Print Assumptions C54_crlf_refuted.
