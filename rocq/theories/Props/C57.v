(** C57: an error shows the lines of the source it is about and marks the text. *)
From Coq Require Import String List ZArith NArith Bool Arith.
From Verif Require Import Model.Base Model.Utf Model.Ast Model.Excerpt Spec.ParseSpec Spec.ExcerptSpec Proofs.ExcerptProofs.
Import ListNotations.

(** A span within a line: that line alone is shown, and the marks start at the column where the span starts and end where it
    ends.  Columns from 10000 on are an exception. *)
Theorem C57_single : forall white bc a p m r e b, fresh a -> line_text (p ++ m ++ r) -> follows e b -> m <> [] ->
  print_trace white bc (a ++ p ++ m ++ r ++ e ++ b) (byte_len (a ++ p)) (byte_len m) =
  Ok (Excerpt (wide p) [p ++ m ++ r] (Some (N.min 10000 (N.of_nat (wide p)), N.of_nat (wide (p ++ m)) - N.min 10000 (N.of_nat (wide p)))%N)).
Proof. exact single_print. Qed.
Print Assumptions C57_single.

(** A span over several lines: just those lines are listed, marked from where the span starts, over the text of each line,
    to where the span ends. *)
Theorem C57_multi : forall white bc a p m0 e0 ts mk r e b, fresh a -> line_text (p ++ m0) -> eol e0 -> Forall (fun l => line_text (fst l) /\ eol (snd l)) ts ->
  line_text (mk ++ r) -> mk <> [] -> follows e b ->
  let span := m0 ++ e0 ++ lines_text ts ++ mk in
  trace_code_lines white bc (a ++ p ++ span ++ r ++ e ++ b) (byte_len (a ++ p)) (byte_len (a ++ p) + byte_len span) =
  Ok ((p ++ m0, wide p, match m0 with [] => wide p + 1 | _ => wide (trim_end white (p ++ m0)) end) ::
      map (fun l => (fst l, wide (leading white (fst l)), wide (trim_end white (fst l)))) ts ++ [(mk ++ r, wide (leading white (mk ++ r)), wide mk)]).
Proof. exact multi_lines. Qed.
Print Assumptions C57_multi.
(** What is taken off a line is the white space at its ends, all of it. *)
Theorem C57_white : forall white s, (exists x, s = leading white s ++ x /\ all_white white (leading white s) /\ starts_ink white x) /\
  (exists w, s = trim_end white s ++ w /\ all_white white w /\ ends_ink white (trim_end white s)).
Proof. exact (fun white s => conj (leading_spec white s) (trim_spec white s)). Qed.
Print Assumptions C57_white.
(** The marks below the lines span from the least column to the greatest. *)
Theorem C57_marks : forall white bc code start len ls, 0 < len -> trace_code_lines white bc code start (start + len) = Ok ls -> ls <> [] ->
  Forall (fun l => (N.of_nat (snd (fst l)) <= 10000)%N) ls ->
  exists lo hi, is_least lo (map (fun l => snd (fst l)) ls) /\ is_greatest hi (map snd ls) /\
    print_trace white bc code start len = Ok (Excerpt (hd 0 (map (fun l => snd (fst l)) ls)) (map (fun l => fst (fst l)) ls) (if (lo <? hi)%N then Some (lo, hi - lo)%N else None)).
Proof. exact print_marks. Qed.
Print Assumptions C57_marks.

(** With nothing to mark all lines are shown. *)
Theorem C57_whole : forall white bc ts t start, Forall (fun l => line_text (fst l) /\ eol (snd l)) ts -> line_text t ->
  print_trace white bc (lines_text ts ++ t) start 0 = Ok (Excerpt 0 (map fst ts ++ match t with [] => [] | _ => [t] end) None).
Proof. exact whole_print. Qed.
Print Assumptions C57_whole.

(** Showing does not panic: for any span on character boundaries, so for any part of a parsed line. *)
Theorem C57_safe : forall white bc pre mid post, exists x, print_trace white bc (pre ++ mid ++ post) (byte_len pre) (byte_len mid) = Ok x.
Proof. exact print_total. Qed.
Print Assumptions C57_safe.
Theorem C57_tag : forall white bc line lo hi t, sp_tag line lo hi t ->
  exists x, print_trace white bc line (N.to_nat (tg_s t)) (N.to_nat (tg_e t) - N.to_nat (tg_s t)) = Ok x.
Proof. exact tag_print. Qed.
Print Assumptions C57_tag.

(** Parsing that stops at the end of the text is shown with a mark after the last line. *)
Theorem C57_end : forall white bc a p, fresh a -> line_text p -> p <> [] ->
  parse_trace white bc (a ++ p) (byte_len (a ++ p)) 0 =
  Ok (Excerpt (wide p) [p] (Some (N.min 10000 (N.of_nat (wide p)), N.of_nat (wide p + 1) - N.min 10000 (N.of_nat (wide p)))%N)).
Proof. exact end_print. Qed.
Print Assumptions C57_end.

Definition spaces (c : N) : bool := N.eqb c 32 || N.eqb c 9 || N.eqb c 10.
Definition lines (ls : list string) : str := concat (map (fun l => lit l ++ [10%N]) ls).
Definition tab : str := [9%N].
(** [\tlet |], marked at [get:Foo]; over three lines; at the end. *)
Example C57_example : print_trace spaces true (lines ["ls |"]%string ++ tab ++ lit "x get:Foo | y" ++ [10%N]) 8 7 =
  Ok (Excerpt 6 [tab ++ lit "x get:Foo | y"] (Some (6, 7)%N)).
Proof. reflexivity. Qed.
Example C57_example_multi : print_trace spaces true (lines ["ls | map {"; "  get x  "; "  foo } | y"]%string) 9 18 =
  Ok (Excerpt 9 [lit "ls | map {"; lit "  get x  "; lit "  foo } | y"] (Some (2, 8)%N)).
Proof. reflexivity. Qed.
Example C57_example_end : parse_trace spaces true (lit "ls {") 4 0 = Ok (Excerpt 4 [lit "ls {"] (Some (4, 1)%N)).
Proof. reflexivity. Qed.

(** From column 10000 on, the marks do not start at the text but at column 10000. *)
Theorem C57_far_refuted : forall white bc, exists code, print_trace white bc code (N.to_nat 10005) 1 = Ok (Excerpt (N.to_nat 10005) [code] (Some (10000, 6)%N)).
Proof.
  intros white bc. destruct (far_print white bc (N.to_nat 10005)) as (code & E). exists code.
  rewrite Nnat.Nat2N.inj_add, Nnat.N2Nat.id in E. exact E.
Qed.
Print Assumptions C57_far_refuted.

(** If the text ends with a line feed, parsing that stops at the end of the text is shown without source and without a
    mark. *)
Theorem C57_trailing_refuted : exists text, text = lines ["ls {"]%string /\ forall white bc, parse_trace white bc text (byte_len text) 0 = Ok (Excerpt 0 [] None).
Proof. eexists. split; [reflexivity|]. intros white bc. apply end_fresh. right. now exists (lit "ls {"). Qed.
Print Assumptions C57_trailing_refuted.
