(** C55: colouring a line shows the line, with its words coloured. *)
From Coq Require Import String List ZArith NArith Bool Arith Permutation.
From Verif Require Import Model.Base Model.Utf Model.Ast Model.Parse Model.Highlight Spec.ParseSpec Spec.LexSpec Proofs.ParseSamples Proofs.LexProofs Proofs.HighlightProofs.
Import ListNotations.

(** The words of a line that parses, types too, are written one after the other, each with its marks around it. *)
Theorem C55_words : forall k line r e, expression k line = POk r e -> in_order line 0 (byte_len line) (expr_words e).
Proof. exact expression_words. Qed.
Print Assumptions C55_words.
Theorem C55_definition_words : forall k line r d, definition_impl k line = POk r d -> in_order line 0 (byte_len line) (def_words line d).
Proof. exact definition_words. Qed.
Print Assumptions C55_definition_words.

(** Listing the words for colouring works as long as every op has a name, and panics otherwise. *)
Theorem C55_listed : forall e, (Forall named_op (expr_ops e) -> exists ls, leaves_expr e = Ok ls) /\ (~ Forall named_op (expr_ops e) -> leaves_expr e = Panic).
Proof. exact leaves_iff. Qed.
Print Assumptions C55_listed.

(** Whatever the sort does with words that start at the same place, the pieces put together are the line, and those with a
    colour are the listed words with their marks, in place.  Asked for: no op is written as a path, and no character before
    a flag is outside ASCII. *)
Theorem C55_expression : forall k line r e sorter, expression k line = POk r e -> Forall plain_op (expr_ops e) -> sorts sorter ->
  exists ls, leaves_expr e = Ok ls /\ (ascii_before_flags line ls -> exists ps, highlight sorter line ls = Ok ps /\ coloured_well line ls ps).
Proof. exact highlights_expression. Qed.
Print Assumptions C55_expression.

Theorem C55_definition : forall k line r d sorter, definition_impl k line = POk r d -> Forall plain_op (expr_ops (snd d)) -> sorts sorter ->
  exists ls, leaves_def line d = Ok ls /\ (ascii_before_flags line ls -> exists ps, highlight sorter line ls = Ok ps /\ coloured_well line ls ps).
Proof. exact highlights_definition. Qed.
Print Assumptions C55_definition.

Definition colour (k : lang) (line : str) : res (list piece) :=
  match expression k line with
  | POk _ e => let? ls := leaves_expr e in highlight isort line ls
  | _ => Err 0
  end.
Definition colour_def (k : lang) (line : str) : res (list piece) :=
  match definition_impl k line with
  | POk _ d => let? ls := leaves_def line d in highlight isort line ls
  | _ => Err 0
  end.
Definition plain (s : string) : piece := (None, lit s).
Definition in_class (ty : ntype) (s : string) : piece := (Some ty, lit s).

Example C55_example : sorts isort /\ colour ascii (lit "ls --'a b' 'x y' | get:Num $a.b {len #i} 3") =
  Ok [in_class NCommand "ls"; plain " "; in_class NFlag "--'a b'"; plain " '"; in_class NIdent "x y"; plain "' | "; in_class NCommand "get";
      plain ":Num "; in_class NVar "$a"; in_class NCommand "."; in_class NIdent "b"; plain " {"; in_class NCommand "len"; plain " ";
      in_class NPound "#i"; plain "} "; in_class NNum "3"].
Proof. split; [exact isort_sorts|reflexivity]. Qed.
Example C55_example_def : colour_def ascii (lit "def foo Table (a:Num b) {get $a}") =
  Ok [in_class NCommand "def"; plain " "; in_class NCommand "foo"; plain " "; in_class NType "Table"; plain " ("; in_class NParameter "a";
      plain ":Num "; in_class NParameter "b"; plain ") {"; in_class NCommand "get"; plain " "; in_class NVar "$a"; plain "}"].
Proof. reflexivity. Qed.

(** Displaying a line with an op written as a path panics, although the line parses. *)
Theorem C55_path_refuted : exists line r e, expression ascii line = POk r e /\ leaves_expr e = Panic.
Proof. exists (lit "a/get 3"), []. eexists. split; [reflexivity|reflexivity]. Qed.
Print Assumptions C55_path_refuted.

(** The character before a flag is looked up by counting characters up to a number of bytes.  With [日] before the flag and
    a quote in its name, the wrong character is a quote and the range leaves the line: displaying panics. *)
Theorem C55_bytes_refuted : exists line r e ls, expression ascii line = POk r e /\ Forall plain_op (expr_ops e) /\ leaves_expr e = Ok ls /\
  forall sorter, sorts sorter -> highlight sorter line ls = Panic.
Proof.
  exists (lit "get '" ++ [26085%N] ++ lit "' --a'"), []. do 2 eexists. split; [reflexivity|]. split; [repeat constructor|]. split; [reflexivity|].
  intros sorter S. unfold highlight. match goal with |- paint _ _ (sorter ?l) = _ => set (l0 := l); destruct (S l0) as [P O] end.
  assert (E : sorter l0 = l0). { apply sorted_unique; auto. vm_compute. repeat constructor. }
  rewrite E. vm_compute. reflexivity.
Qed.
Print Assumptions C55_bytes_refuted.
