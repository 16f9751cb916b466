(** C72: what the language server takes for the definition at the cursor. *)
From Coq Require Import List ZArith NArith Bool Arith Lia.
From Verif Require Import Model.Base Model.Utf Model.Lsp Model.DefText Spec.LspSpec Spec.DefTextSpec Proofs.DefTextProofs.
Import ListNotations.

(** For any document and any line, the text is that of the lines around it, each ended by a line feed: back to an empty line or the start,
    without the comments at the top, and on to an empty line or the end.  With it comes the number of its first line. *)
Theorem C72_text : forall bc ws text line, exists i j, excerpt ws (doc_lines bc text) line i j /\
  snd (get_def_text bc ws text line) = unlines (between (doc_lines bc text) i j) /\ (i < j -> fst (get_def_text bc ws text line) = i).
Proof. exact text_excerpt. Qed.
Print Assumptions C72_text.

(** There are no other such lines. *)
Theorem C72_only : forall ws ls line i j i' j', excerpt ws ls line i j -> excerpt ws ls line i' j' -> i = i' /\ j = j'.
Proof. exact excerpt_one. Qed.
Print Assumptions C72_only.

(** What is completed is the definition up to the cursor: the lines of it before that of the cursor, and of that one the characters
    before the cursor, whose place the editor gives in units of UTF-16. *)
Theorem C72_typed : forall bc ws text p i j a b, nth_error (doc_lines bc text) (p_line p) = Some (a ++ b) -> utf16_len a = p_char p ->
  excerpt ws (doc_lines bc text) (p_line p) i j -> (forall x, In x (between (doc_lines bc text) i (S (p_line p))) -> no_return x) ->
  typed bc ws text p = Some (Ok (unlines (between (doc_lines bc text) i (p_line p)) ++ a)).
Proof. exact typed_exact. Qed.
Print Assumptions C72_typed.

(** Hovering goes by the same place: that of the cursor in the text, in bytes. *)
Theorem C72_place : forall bc ws text p i j a b, nth_error (doc_lines bc text) (p_line p) = Some (a ++ b) -> utf16_len a = p_char p ->
  excerpt ws (doc_lines bc text) (p_line p) i j -> (forall x, In x (between (doc_lines bc text) i (S (p_line p))) -> no_return x) ->
  place bc (fst (get_def_text bc ws text (p_line p))) (snd (get_def_text bc ws text (p_line p))) p = Some (byte_len (unlines (between (doc_lines bc text) i (p_line p)) ++ a)).
Proof. exact place_exact. Qed.
Print Assumptions C72_place.

(** A place beyond the line, or inside a character, does no harm: some part of the line is taken. *)
Theorem C72_never : forall bc ws text p l i j, nth_error (doc_lines bc text) (p_line p) = Some l ->
  excerpt ws (doc_lines bc text) (p_line p) i j -> (forall x, In x (between (doc_lines bc text) i (S (p_line p))) -> no_return x) ->
  exists a b, l = a ++ b /\ typed bc ws text p = Some (Ok (unlines (between (doc_lines bc text) i (p_line p)) ++ a)).
Proof. exact typed_ok. Qed.
Print Assumptions C72_never.

(** On a line the document has not got, the last one after a line feed among them, nothing is completed. *)
Theorem C72_outside : forall bc ws text p, length (doc_lines bc text) <= p_line p -> typed bc ws text p = None.
Proof. exact typed_outside. Qed.
Print Assumptions C72_outside.

(** ** Examples *)
Definition blanks (c : N) : bool := ((c =? 32) || (c =? 10) || (c =? 13) || (c =? 9))%N.
(** [a], nothing, [# c], [é b], [c], nothing, [d], and the cursor after [c]. *)
Definition doc : str := [97;10;10;35;32;99;10;233;32;98;10;99;10;10;100]%N.
Example C72_example : nth_error (doc_lines false doc) 4 = Some ([99]%N ++ []) /\ utf16_len [99]%N = 1 /\ excerpt blanks (doc_lines false doc) 4 3 5 /\
  (forall x, In x (between (doc_lines false doc) 3 5) -> no_return x) /\ typed false blanks doc {| p_line := 4; p_char := 1 |} = Some (Ok [233;32;98;10;99]%N).
Proof.
  split; [reflexivity|]. split; [reflexivity|]. split; [|split; [|reflexivity]].
  - destruct (C72_text false blanks doc 4) as (i & j & X & T & F). pose proof (ex_bounds X) as (B1 & B2 & B3). assert (J : 4 < j) by (apply (ex_line X); cbn; lia).
    assert (I : i = 3) by (rewrite <- F by lia; reflexivity). subst i. replace 5 with j; [exact X|]. apply (f_equal (@length _)) in T. change (length (doc_lines false doc)) with 7 in B3.
    assert (K : j = 5 \/ j = 6 \/ j = 7) by lia. destruct K as [-> | [-> | ->]]; [auto|vm_compute in T; discriminate T..].
  - intros x H. vm_compute in H. destruct H as [<-|[<-|[]]]; intros (a & E); apply (f_equal (@rev _)) in E; rewrite rev_app_distr in E; discriminate E.
Qed.

(** ** Findings *)
(** On an empty line between two definitions, where the next one would be typed, the text before the cursor is the whole of the definition
    before: what is completed is something to follow it, not a new definition.  Here the document is [a], nothing, [b]. *)
Theorem C72_blank_refuted : exists text p, nth_error (doc_lines false text) (p_line p) = Some [] /\ typed false blanks text p = Some (Ok [97;10]%N) /\ snd (get_def_text false blanks text (p_line p)) = [97;10;10;98;10]%N.
Proof. exists [97;10;10;98]%N, {| p_line := 1; p_char := 0 |}. vm_compute. repeat split. Qed.

(** Carriage returns left at the ends of lines are counted in the text but not when finding the place in it: where a line ends in two of
    them and a line feed the cursor is put one byte too early, and the server panics if that is inside of a character. *)
Theorem C72_return_refuted : exists text p, nth_error (doc_lines false text) (p_line p) = Some ([233]%N ++ [97]%N) /\ p_char p = utf16_len [233]%N /\ typed false blanks text p = Some Panic.
Proof. exists [233;13;13;10;233;97]%N, {| p_line := 1; p_char := 1 |}. vm_compute. repeat split. Qed.
