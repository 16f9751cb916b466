(** C84: text in the shell is wrapped without loss, and the cursor is where it is in the text. *)
From Coq Require Import List NArith Bool Arith Lia.
From Verif Require Import Model.Base Model.Wrap Spec.WrapSpec Proofs.WrapProofs.
Import ListNotations.

(** Each text has lines, and what is shown are the rows of each line, one line below the other: nothing is lost or put elsewhere,
    colours stay with their characters, a row ends only where the next character does not fit, and no row is wider than the window
    (before tabs are replaced). *)
Theorem C84_text : forall St chw width (s : list (N * St)), s <> [] ->
  exists ls groups, lines St s ls /\ convert chw width s = concat groups /\ Forall2 (shown_rows_of St chw width) ls groups.
Proof. exact text_total. Qed.
Print Assumptions C84_text.

(** The lines of a text are not a matter of choice. *)
Theorem C84_lines : forall St (s : list (N * St)) ls ls', lines St s ls -> lines St s ls' -> ls = ls'.
Proof. exact lines_unique. Qed.
Print Assumptions C84_lines.

(** The cursor at the column [q] of the line [l]: characters are one column wide, there are no tabs, and the cursor is not at the
    start of a line below an empty one (other than the first line).  It is shown in the rows of [l], at [q]. *)
Theorem C84_cursor : forall St chw width (s : list (N * St)) l1 l l2 q,
  lines St s (l1 ++ l :: l2) -> s <> [] -> q <= length l ->
  (forall c, In c s -> fst c <> 13%N /\ fst c <> 9%N /\ (fst c <> 10%N -> chw (fst c) = 1)) ->
  (q <> 0 \/ l1 = [] \/ l1 = [[]] \/ exists l1' p, l1 = l1' ++ [p] /\ p <> []) ->
  exists before here after x j,
    convert chw width s = concat before ++ here ++ concat after /\
    Forall2 (rows_of St chw width) l1 before /\ rows_of St chw width l here /\ Forall2 (rows_of St chw width) l2 after /\
    cursor chw width (plain St s) (list_sum (map (fun l => S (length l)) l1) + q) s = (x, length (concat before) + j) /\
    at_column St here q x j.
Proof. exact cursor_proof. Qed.
Print Assumptions C84_cursor.

(** The case left out: the cursor at the start of a line with [n] empty lines above, and the line [p] above these.  It is shown at
    the start of the row below [p], so [n] rows too high. *)
Theorem C84_below_blank : forall St chw width (s : list (N * St)) l1 p n l l2,
  lines St s ((l1 ++ [p]) ++ repeat [] n ++ l :: l2) -> p <> [] ->
  (forall c, In c s -> fst c <> 13%N /\ fst c <> 9%N /\ (fst c <> 10%N -> chw (fst c) = 1)) ->
  exists before here after,
    convert chw width s = concat before ++ repeat [] n ++ here ++ concat after /\
    Forall2 (rows_of St chw width) (l1 ++ [p]) before /\ rows_of St chw width l here /\ Forall2 (rows_of St chw width) l2 after /\
    cursor chw width (plain St s) (list_sum (map (fun l => S (length l)) ((l1 ++ [p]) ++ repeat [] n))) s = (0, length (concat before)).
Proof. exact blank_proof. Qed.
Print Assumptions C84_below_blank.

(** And with nothing but empty lines above, it is shown in the second row. *)
Theorem C84_leading_blank : forall St chw width (s : list (N * St)) n l l2,
  lines St s (repeat [] (S n) ++ l :: l2) ->
  (forall c, In c s -> fst c <> 13%N /\ fst c <> 9%N /\ (fst c <> 10%N -> chw (fst c) = 1)) ->
  exists here after,
    convert chw width s = repeat [] (S n) ++ here ++ concat after /\
    rows_of St chw width l here /\ Forall2 (rows_of St chw width) l2 after /\
    cursor chw width (plain St s) (S n) s = (0, 1).
Proof. exact leading_proof. Qed.
Print Assumptions C84_leading_blank.

Section Examples.
  Let chw (c : N) : nat := if N.ltb c 32 then 0 else if N.ltb c 128 then 1 else 2.
  Let text (s : list N) : list (N * bool) := map (fun c => (c, N.even c)) s.
  Let a := 97%N. Let b := 98%N. Let nl := 10%N. Let wide_char := 20013%N.

  (** Two lines, the first over two rows in a window of three columns, a tab in the second *)
  Example C84_example : map (map fst) (convert chw 3 (text [a; b; a; b; a; 13%N; nl; b; 9%N; nl])) =
    [[a; b; a]; [b; a]; [b; 32; 32; 32; 32]; []]%N.
  Proof. vm_compute. reflexivity. Qed.
  Example C84_example_wide : map (map fst) (convert chw 3 (text [a; wide_char; wide_char])) = [[a; wide_char]; [wide_char]].
  Proof. vm_compute. reflexivity. Qed.

  (** The hypotheses of C84_cursor hold for the second column of the second line. *)
  Example C84_example_cursor :
    let s := text [a; b; a; b; nl; a; b] in
    lines bool s ([text [a; b; a; b]] ++ text [a; b] :: []) /\
    (forall c, In c s -> fst c <> 13%N /\ fst c <> 9%N /\ (fst c <> 10%N -> chw (fst c) = 1)) /\
    cursor chw 3 (plain bool s) 6 s = (1, 2) /\ cursor chw 3 (plain bool s) 5 s = (0, 2) /\ cursor chw 3 (plain bool s) 4 s = (1, 1).
  Proof.
    cbn zeta. split; [|split].
    - apply (lines_nl bool (text [a; b; a; b])).
      + cbn. intros H. repeat (destruct H as [H|H]; [discriminate H|]). exact H.
      + intros l' c E. apply (f_equal (@rev _)) in E. rewrite rev_app_distr in E. discriminate E.
      + apply lines_last. cbn. intros H. repeat (destruct H as [H|H]; [discriminate H|]). exact H.
    - intros c H. cbn in H.
      repeat (destruct H as [<-|H]; [cbn; split; [discriminate|split; [discriminate|intros X; first [reflexivity|exfalso; apply X; reflexivity]]]|]).
      destruct H.
    - vm_compute. repeat split.
  Qed.

  (** The hypotheses of C84_below_blank hold for two empty lines between a and b. *)
  Example C84_example_blank :
    let s := text [a; nl; nl; nl; b] in
    lines bool s (([] ++ [text [a]]) ++ repeat [] 2 ++ text [b] :: []) /\ cursor chw 3 (plain bool s) 4 s = (0, 1).
  Proof.
    cbn zeta. split; [|vm_compute; reflexivity].
    apply (lines_nl bool (text [a])).
    - cbn. intros H. repeat (destruct H as [H|H]; [discriminate H|]). exact H.
    - intros l' c E. apply (f_equal (@rev _)) in E. rewrite rev_app_distr in E. discriminate E.
    - apply (lines_nl bool []); [intros []|intros l' c E; destruct l'; discriminate E|].
      apply (lines_nl bool []); [intros []|intros l' c E; destruct l'; discriminate E|].
      apply lines_last. cbn. intros H. repeat (destruct H as [H|H]; [discriminate H|]). exact H.
  Qed.

  Example C84_example_leading :
    let s := text [nl; nl; b] in
    lines bool s (repeat [] 2 ++ text [b] :: []) /\ cursor chw 3 (plain bool s) 2 s = (0, 1).
  Proof.
    cbn zeta. split; [|vm_compute; reflexivity].
    apply (lines_nl bool []); [intros []|intros l' c E; destruct l'; discriminate E|].
    apply (lines_nl bool []); [intros []|intros l' c E; destruct l'; discriminate E|].
    apply lines_last. cbn. intros H. repeat (destruct H as [H|H]; [discriminate H|]). exact H.
  Qed.

  (** Finding: below an empty line the cursor is a row too high.  The text has rows a, empty, and b; with the cursor before b it is
      shown in the empty row. *)
  Theorem C84_blank_refuted : exists s, s = text [a; nl; nl; b] /\
    map (map fst) (convert chw 3 s) = [[a]; []; [b]] /\ cursor chw 3 (plain bool s) 3 s = (0, 1).
  Proof. eexists. split; [reflexivity|]. vm_compute. split; reflexivity. Qed.

  (** Finding: the cursor counts characters where rows count columns.  After a character of two columns it is shown in the middle of
      that character, and in a window of four columns after three of them it is shown in the first row, which has only two. *)
  Theorem C84_wide_refuted : exists s, s = text [wide_char; wide_char; wide_char] /\
    map (map fst) (convert chw 4 s) = [[wide_char; wide_char]; [wide_char]] /\
    cursor chw 4 (plain bool s) 1 s = (1, 0) /\ cursor chw 4 (plain bool s) 3 s = (3, 0).
  Proof. eexists. split; [reflexivity|]. vm_compute. repeat split; reflexivity. Qed.

  (** Finding: a tab counts as no column when a line is wrapped, and is shown as four.  A line with tabs is wider than the window. *)
  Theorem C84_tab_refuted : exists s, s = text [9%N; a; 9%N; b] /\
    exists r, convert chw 4 s = [r] /\ wide bool chw r = 10.
  Proof. eexists. split; [reflexivity|]. eexists. split; vm_compute; reflexivity. Qed.
End Examples.
