(** C73: what the language server offers to complete a line. *)
From Coq Require Import String List ZArith NArith Bool Arith.
From Verif Require Import Model.Base Model.Utf Model.Highlight Model.Complete Spec.CompleteSpec Proofs.CompleteProofs.
Import ListNotations.

(** For any line the path that is completed is found: the quote that is open with what follows it, or else the last word. *)
Theorem C73_word : forall line r, path_component line = Ok r <-> path_word line r.
Proof. exact word_iff. Qed.
Print Assumptions C73_word.
Theorem C73_found : forall line, exists r, path_component line = Ok r.
Proof. exact word_total. Qed.
Print Assumptions C73_found.

(** The files offered are those of the directory with this path, or of the one above if there is none. *)
Theorem C73_files : forall is_dir read_dir wd line, exists r, path_completions is_dir read_dir wd line = Ok r /\
  forall x, In x r <-> exists w d, path_word line w /\ (is_dir (join wd w) = true /\ d = join wd w \/ is_dir (join wd w) = false /\ parent (join wd w) = Some d) /\ listed read_dir d x.
Proof. exact paths_are. Qed.
Print Assumptions C73_files.

(** So after the path of a directory, a slash and some of a name, the entries of this directory are offered. *)
Theorem C73_inside : forall is_dir read_dir wd line d x, path_word line (d ++ 47%N :: x) -> ~ In 47%N x -> d <> [] -> (forall c t, d = c :: t -> c <> 47%N) ->
  is_dir (wd ++ names d) = true -> (plain x = true -> is_dir (wd ++ names d ++ [x]) = false) ->
  exists r, path_completions is_dir read_dir wd line = Ok r /\ forall y, In y r <-> listed read_dir (wd ++ names d) y.
Proof. exact paths_in. Qed.
Print Assumptions C73_inside.

(** Where the word at the cursor or what is expected next is an op, the ops are offered, for a type the types, for a special literal the
    three there are, and for a term or the word of one ops, special literals and files; nothing else is. *)
Theorem C73_offers : forall is_dir read_dir impls types line wd s, wants s -> exists r, at_spot is_dir read_dir impls types line wd s = Ok (Some r) /\ forall x, In x r <->
  (wants_impl s /\ snd x = KImpl /\ In (fst x) impls) \/ (wants_type s /\ snd x = KType /\ In (fst x) types) \/
  (wants_lit s /\ snd x = KLit /\ In (fst x) [lit "#t"; lit "#f"; lit "#i"]) \/ (wants_path s /\ exists p r', wd = Some p /\ path_completions is_dir read_dir p line = Ok r' /\ In x r').
Proof. exact offered. Qed.
Print Assumptions C73_offers.

(** At numbers, variables, flags and parameters nothing is offered. *)
Theorem C73_nothing : forall is_dir read_dir impls types line wd s, ~ wants s -> s <> SNext XPath -> at_spot is_dir read_dir impls types line wd s = Ok None.
Proof. exact not_offered. Qed.
Print Assumptions C73_nothing.

(** ** Examples *)
(** A directory [d] with a directory [s] in it, which has a file [f]. *)
Definition a_dir (p : list str) : bool := match p with [a] => str_eqb a (lit "d") | [a; b] => str_eqb a (lit "d") && str_eqb b (lit "s") | _ => false end.
Definition entries (p : list str) : option (list (option (str * bool))) :=
  match p with [_] => if a_dir p then Some [Some (lit "s", true)] else None | [_; _] => if a_dir p then Some [Some (lit "f", false); None] else None | _ => None end.
Lemma no_quotes : forall s, Forall (fun c => esc c = false) s -> balanced s.
Proof. induction 1 as [|c s E _ IH]; constructor; auto. intros Q. apply esc_iff in Q. congruence. Qed.
Example C73_example : path_word (lit "ls | open s/g") (lit "s" ++ 47%N :: lit "g") /\ ~ In 47%N (lit "g") /\ a_dir ([lit "d"] ++ names (lit "s")) = true /\
  (plain (lit "g") = true -> a_dir ([lit "d"] ++ names (lit "s") ++ [lit "g"]) = false) /\ path_completions a_dir entries [lit "d"] (lit "ls | open s/g") = Ok [(lit "f", KFile)].
Proof.
  split; [right; left; exists (lit "ls | open "); split; [reflexivity|]; split; [apply no_quotes; repeat constructor|]; split; [discriminate|]; split; [vm_compute; intros [Z|[Z|[Z|[]]]]; discriminate|]; right; exists (lit "ls | open"); reflexivity|].
  split; [vm_compute; intros [Z|[]]; discriminate|]. split; [reflexivity|]. split; [reflexivity|]. reflexivity.
Qed.
(** An open quote. *)
Example C73_quote_example : path_word (lit "open 'a b' 'c d") (lit "'c d").
Proof.
  left. exists (lit "open 'a b' "), 39%N, (lit "c d"). split; [reflexivity|]. split; [reflexivity|]. split; [|split; [now right|vm_compute; intros [Z|[Z|[Z|[]]]]; discriminate]].
  change (lit "open 'a b' ") with ([111;112;101;110;32]%N ++ 39%N :: [97;32;98]%N ++ 39%N :: [32]%N). do 5 (cbn [app]; apply bal_char; [intros [Z|Z]; discriminate|]). apply (bal_quoted 39 [97;32;98]%N [32]%N); [now right|intros [Z|[Z|[Z|[]]]]; discriminate|].
  apply bal_char; [intros [Z|Z]; discriminate|constructor].
Qed.

(** ** Findings *)
(** After a space the whole line is taken for the path, not an empty one.  With a slash somewhere in the line the files of the working
    directory are not offered where a file is to be given: in [let { open s/f | save ], where a term is expected, none is. *)
Theorem C73_space_refuted : exists line, path_component line = Ok line /\ (exists a, line = a ++ [32%N]) /\ path_completions a_dir entries [lit "d"] line = Ok [] /\ entries [lit "d"] <> Some [].
Proof. exists (lit "let { open s/f | save "). split; [reflexivity|]. split; [exists (lit "let { open s/f | save"); reflexivity|]. split; [reflexivity|discriminate]. Qed.

(** The quote is part of the path: in a string the entries of the directory that has been typed are not offered but, here, those of the
    working directory. *)
Theorem C73_quote_refuted : exists line, path_component line = Ok (lit "'s/") /\ path_completions a_dir entries [lit "d"] line = Ok [(lit "s", KDir)] /\ path_completions a_dir entries [lit "d"] (lit "open s/") = Ok [(lit "f", KFile)].
Proof. exists (lit "open 's/"). repeat split; reflexivity. Qed.

(** If the parser expects a path the server panics. *)
Theorem C73_path_refuted : forall is_dir read_dir impls types line wd, at_spot is_dir read_dir impls types line wd (SNext XPath) = Panic.
Proof. exact path_panics. Qed.
