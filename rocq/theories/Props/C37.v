(** C37: a definition file is split without losing or merging items. *)
From Coq Require Import String List ZArith NArith Bool Arith Lia.
From Verif Require Import Model.Base Model.Utf Model.Ast Model.Parse Model.File Spec.ParseSpec Spec.FileSpec
  Proofs.ParseWriteProofs Proofs.FileSplitProofs Proofs.FileDocProofs Proofs.FileMainProofs Proofs.ParseSamples.
Import ListNotations.

(** The items of any text, in order: with the white text in between they are the text, no item has a blank line, and between
    two items there is one. *)
Theorem C37_split : forall k, sane k -> forall head text, exists ps its,
  split_items k text = Ok ps /\ splits k 0 head text its /\
  Forall2 (fun se bi => fst bi = head ++ firstn (fst se) text /\ snd bi = cut_out text se /\ snd se <= length text /\ solid k (snd bi)) ps its.
Proof. exact split_items_ok. Qed.
Print Assumptions C37_split.

(** A file that is read is laid out as it should be: comments, directives, items; each item with the comment lines above it,
    its text, its line, its name.  The comment at the top goes to the first item when no directive and no empty line follows. *)
Theorem C37_file : forall k, sane k -> forall text f, parse_file k text = Ok f -> outlines k text f.
Proof. exact file_outlines. Qed.
Print Assumptions C37_file.

(** A file that is refused has a bracket at the start of a line before the items, or an item that begins as a definition
    does but gives no name. *)
Theorem C37_refused : forall k, sane k -> forall text e, parse_file k text = Err e ->
  (exists p s, text = p ++ s /\ opens k s) \/
  (exists h body its b it, text = h ++ body /\ splits k 0 h body its /\ In (b, it) its /\
    no_definition k it).
Proof. exact file_refused. Qed.
Print Assumptions C37_refused.

Theorem C37_total : forall k, sane k -> forall text, (newlines text < 65535)%N -> parse_file k text <> Panic.
Proof. exact file_total. Qed.
Print Assumptions C37_total.

(** ** A file *)
Definition nls (ls : list string) : str := flat_map (fun l => lit l ++ [nl]) ls.
Definition a_file : str :=
  nls ["# What the file is for"; "#  in two lines"; "[import(std/math) fail-fast]"; ""; "# adds"; "# one"; "def inc () { + 1 }"; "";
       "def-ty Point { x:Num y:Num }"; "  "; "range 0 5 |"; "  map { inc }"]%string.
Example C37_example : parse_file ascii a_file =
  Ok (File (Some (lit "What the file is for" ++ [nl] ++ lit "in two lines")) [DImport [Import PNone [lit "std"] (lit "math")]; FailFast]
    [(lit "Point", Item None (lit "def-ty Point { x:Num y:Num }") 9)]
    [(lit "inc", Item (Some (lit "adds" ++ [nl] ++ lit "one")) (lit "def inc () { + 1 }") 7)]
    [Item None (lit "range 0 5 |" ++ [nl] ++ lit "  map { inc }") 11]).
Proof. vm_compute. reflexivity. Qed.
Example C37_example_top : parse_file ascii (nls ["# adds"; "def inc () { + 1 }"]%string) =
  Ok (File None [] [] [(lit "inc", Item (Some (lit "adds")) (lit "def inc () { + 1 }") 2)] []).
Proof. vm_compute. reflexivity. Qed.

(** ** Where comments and items go astray *)

(** With a space on the line below the comment at the top, or with lines ended by CR LF, the first definition gets that
    comment in place of its own. *)
Theorem C37_help_lost_refuted : forall top, In top [lit "# top" ++ [nl] ++ lit " " ++ [nl]; lit "# top" ++ [cr; nl; cr; nl]] ->
  parse_file ascii (top ++ nls ["# own"; "def f () { + 1 }"]%string) =
  Ok (File None [] [] [(lit "f", Item (Some (lit "top")) (lit "def f () { + 1 }") 4)] []).
Proof. intros top H. repeat (destruct H as [<-|H]; [vm_compute; reflexivity|]). destruct H. Qed.
Example C37_help_kept : parse_file ascii (nls ["# top"; ""; "# own"; "def f () { + 1 }"]%string) =
  Ok (File (Some (lit "top")) [] [] [(lit "f", Item (Some (lit "own")) (lit "def f () { + 1 }") 4)] []).
Proof. vm_compute. reflexivity. Qed.

(** A comment on its own further down is an expression without text. *)
Theorem C37_comment_refuted : exists text f, parse_file ascii text = Ok f /\ In (Item (Some (lit "note")) [] 3) (fl_exprs f).
Proof. exists (nls ["+ 1"; ""; "# note"; ""; "+ 2"]%string). eexists. split; [vm_compute; reflexivity|]. cbn. auto. Qed.
(** An expression that begins with a special literal is taken for a comment. *)
Theorem C37_hash_refuted : exists text f, parse_file ascii text = Ok f /\ map it_code (fl_exprs f) = [lit "+ 1"; []].
Proof. exists (nls ["+ 1"; ""; "#t | not"]%string). eexists. split; vm_compute; reflexivity. Qed.
(** An expression whose first word begins with [def] makes the whole file fail. *)
Theorem C37_word_refuted : parse_file ascii (nls ["+ 1"; ""; "default 5"]%string) = Err 0.
Proof. vm_compute. reflexivity. Qed.
(** A last line with directives needs its line ended. *)
Theorem C37_last_line_refuted : parse_file ascii (lit "[fail-fast]") = Err 0 /\
  parse_file ascii (lit "[fail-fast]" ++ [nl]) = Ok (File None [FailFast] [] [] []).
Proof. vm_compute. auto. Qed.
(** Of a component of an import path only the leading name is kept. *)
Theorem C37_import_refuted : exists f, parse_file ascii (nls ["[import(a.b/c)]"]%string) = Ok f /\ fl_dirs f = [DImport [Import PNone [lit "a"] (lit "c")]].
Proof. eexists. vm_compute. split; reflexivity. Qed.

(** An item on line 65536 or below makes the reader panic. *)
Lemma deep_item : forall n, parse_file ascii (repeat nl n ++ lit "a") =
  (if N.ltb (N.of_nat n + 1) 65536 then Ok (File None [] [] [] [Item None (lit "a") (N.of_nat n + 1)]) else Panic).
Proof.
  intro n. unfold parse_file. rewrite trim_start_white.
  2:{ intros c H. apply repeat_spec in H. subst c. reflexivity. }
  change (doc_comment ascii (trim_start ascii (lit "a"))) with (@nil N, lit "a"). cbv iota beta zeta.
  change (dirs_go ascii (S (length (lit "a"))) (lit "a") []) with (POk (lit "a") (@nil directive)). cbv iota beta.
  replace (firstn (length (repeat nl n ++ lit "a") - length (lit "a")) (repeat nl n ++ lit "a")) with (repeat nl n).
  2:{ rewrite app_length. replace (length (repeat nl n) + length (lit "a") - length (lit "a")) with (length (repeat nl n)) by lia. now rewrite firstn_pre. }
  change (split_items ascii (lit "a")) with (Ok [(0, 1)]). cbn [rbind all_items fst snd firstn].
  rewrite app_nil_r. unfold one_item.
  change (cut_out (lit "a") (0, 1)) with (lit "a"). change (doc_comment ascii (lit "a")) with (@nil N, lit "a"). cbv iota beta zeta.
  change (starts_with [nl; nl] (lit "a")) with false.
  change (trim ascii (lit "a")) with (lit "a"). change (starts_with (lit "def-ty") (lit "a")) with false. change (starts_with (lit "def") (lit "a")) with false. cbv iota.
  change (firstn (if blank ascii (lit "a") then length (lit "a") - length (lit "a") else length (lit "a") - length (trim_start ascii (lit "a"))) (lit "a")) with (@nil N).
  rewrite app_nil_r. unfold line_num. rewrite newlines_count.
  replace (newlines (repeat nl n)) with (N.of_nat n).
  - cbn [negb]. destruct (N.ltb (N.of_nat n + 1) 65536); reflexivity.
  - unfold newlines. f_equal. induction n as [|n IH]; [reflexivity|]. cbn [repeat count_occ]. destruct (N.eq_dec nl nl); [|congruence]. now f_equal.
Qed.
Theorem C37_lines_refuted : exists text, parse_file ascii text = Panic.
Proof. exists (repeat nl (N.to_nat 65535) ++ lit "a"). rewrite deep_item, N2Nat.id. reflexivity. Qed.
