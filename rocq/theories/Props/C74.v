(** C74: what the parser expects next, and so what is offered, in a program that is not finished. *)
From Coq Require Import String List ZArith NArith Bool Arith.
From Verif Require Import Model.Base Model.Utf Model.Ast Model.Parse Model.Highlight Model.Complete Model.Expect Spec.ParseSpec Spec.CompleteSpec Spec.ExpectSpec Proofs.ParseSamples Proofs.ExpectProofs Proofs.ExpectPath.
Import ListNotations.

(** The parser that says what it expects reads what the parser of C38 and C39 reads. *)
Theorem C74_same : forall k line, forget (x_expression k line) = expression k line.
Proof. exact same_expression. Qed.
Print Assumptions C74_same.
Theorem C74_same_def : forall k line, forget (x_definition k line) = definition_impl k line.
Proof. exact same_definition. Qed.
Print Assumptions C74_same_def.

(** The start of any program that stops before an op, in braces, after a colon or after a hash is an error that expects what comes there,
    however deep this is. *)
Theorem C74_next : forall k s x, sane k -> u_blocks k s x -> expects (x_expression k s) x.
Proof. exact unfinished. Qed.
Print Assumptions C74_next.
(** It is so in the body of a definition too. *)
Theorem C74_body : forall k h w s x, sane k -> w_head k h -> spaces w -> u_blocks k s x -> expects (x_definition k (h ++ w ++ lit "{" ++ s)) x.
Proof. exact unfinished_body. Qed.
Print Assumptions C74_body.
(** After the name of a definition a type is expected. *)
Theorem C74_def : forall k n w, sane k -> In (tg_str n) symbols \/ names k (tg_str n) -> gap w -> expects (x_definition k (lit "def " ++ tg_str n ++ w)) XType.
Proof. exact def_type. Qed.
Print Assumptions C74_def.

(** So the server offers there what C73 says for what is expected. *)
Theorem C74_offers : forall k is_dir read_dir impls types line wd x, sane k -> strip (lit "def ") line = None -> u_blocks k line x ->
  get k is_dir read_dir impls types line wd = at_spot is_dir read_dir impls types line wd (SNext x).
Proof. exact get_next. Qed.
Print Assumptions C74_offers.
Theorem C74_offers_body : forall k is_dir read_dir impls types h w s wd x, sane k -> w_head k h -> spaces w -> u_blocks k s x ->
  get k is_dir read_dir impls types (h ++ w ++ lit "{" ++ s) wd = at_spot is_dir read_dir impls types (h ++ w ++ lit "{" ++ s) wd (SNext x).
Proof. exact get_body. Qed.
Print Assumptions C74_offers_body.

(** Nothing is said to be expected, and so nothing is offered, in the body of a definition where its expression could be finished. *)
Theorem C74_body_end : forall k is_dir read_dir impls types h w bs s wd, sane k -> w_head k h -> spaces w -> w_blocks k bs s ->
  expects (x_definition k (h ++ w ++ lit "{" ++ s)) XNone /\ get k is_dir read_dir impls types (h ++ w ++ lit "{" ++ s) wd = Ok None.
Proof. exact body_refuted. Qed.
Print Assumptions C74_body_end.

(** A path is expected only if the line ends in a slash. *)
Theorem C74_path : forall k line, expects (x_expression k line) XPath -> exists a, line = a ++ lit "/".
Proof. exact path_only. Qed.
Print Assumptions C74_path.
Theorem C74_path_def : forall k line, expects (x_definition k line) XPath -> exists a, line = a ++ lit "/".
Proof. exact path_only_def. Qed.
Print Assumptions C74_path_def.

(** ** Examples *)
Ltac inl := cbn; repeat (first [left; reflexivity|right]); fail.
Ltac spc := intros c H; cbn in H; repeat (destruct H as [<-|H]; [cbn; tauto|]); destruct H.
Ltac nm := split; [do 2 eexists; split; reflexivity|intros c H; cbn in H; repeat (destruct H as [<-|H]; [left; reflexivity|]); destruct H].
Ltac gp := split; [discriminate|spc].
Definition tg (s : string) : tag := Tag 0 0 (lit s).
(** A type after [ls | filter { get $x | get:], a term after [ls | filter { get $x ]. *)
Example C74_example : u_blocks ascii (lit "ls | filter { get $x | get:") XType /\ strip (lit "def ") (lit "ls | filter { get $x | get:") = None /\
  get ascii (fun _ => false) (fun _ => None) [] [lit "Num"] (lit "ls | filter { get $x | get:") None = Ok (Some [(lit "Num", KType)]).
Proof.
  split; [|split; reflexivity].
  apply (@us_more ascii (BPrefix (OpSingle (tg "ls")) [] None None) [] (lit "ls") (lit " ") (lit " filter { get $x | get:")); [spc| |spc|].
  - apply (@w_prefix ascii _ _ None None [] [] (lit "ls") [] []); [reflexivity|reflexivity|intros H; now destruct H|split; [reflexivity|right; constructor; nm]|reflexivity|constructor].
  - apply (@us_block ascii (lit " ") (lit "filter { get $x | get:")); [spc|]. apply (@ub_terms ascii (OpSingle (tg "filter")) None None [] [] (lit "filter") [] (lit " { get $x | get:")); [reflexivity|reflexivity|intros H; now destruct H|split; [reflexivity|right; constructor; nm]|reflexivity|].
    apply (@ut_open ascii (lit " ") (lit " get $x | get:")); [gp|].
    apply (@us_more ascii (BPrefix (OpSingle (tg "get")) [TArg (AVar (tg "x"))] None None) (lit " ") (lit "get $x") (lit " ") (lit " get:")); [spc| |spc|].
    + apply (@w_prefix ascii _ _ None None [] [] (lit "get") [] (lit " $x")); [reflexivity|reflexivity|intros H; now destruct H|split; [reflexivity|right; constructor; nm]|reflexivity|].
      apply (@w_terms_cons ascii _ _ (lit " ") (lit "$x") []); [gp| |constructor]. apply w_targ with true. apply w_var. nm.
    + apply (@us_block ascii (lit " ") (lit "get:")); [spc|]. apply (@ub_out ascii (OpSingle (tg "get")) None [] [] (lit "get")); [reflexivity|reflexivity|intros H; now destruct H|split; [reflexivity|right; constructor; nm]].
Qed.
Example C74_term_example : x_expression ascii (lit "ls | filter { get $x ") = XErr XTerm \/ x_expression ascii (lit "ls | filter { get $x ") = XFail XTerm.
Proof. vm_compute. tauto. Qed.
Example C74_body_example : w_head ascii (lit "def foo Table (x:Num)") /\ get ascii (fun _ => false) (fun _ => None) [lit "ls"] [] (lit "def foo Table (x:Num) { ls | ") None = Ok (Some [(lit "ls", KImpl)]).
Proof.
  split; [|reflexivity]. apply (@w_head_ty ascii (tg "foo") (tg "Table") [(tg "x", Some (tg "Num"))] (lit " ") (lit " ") (lit "x:Num")); [right; constructor; nm|nm|gp|spc| |repeat constructor; intros []].
  apply (@w_params_one ascii (tg "x", Some (tg "Num")) [] (lit "x:Num") []); [spc| |spc]. split; [nm|]. exists (lit ":Num"). split; [split; [nm|reflexivity]|reflexivity].
Qed.

Example C74_path_example : expects (x_expression ascii (lit "ls | filter { foo/")) XPath /\ expects (x_definition ascii (lit "def foo () { bar/")) XPath /\
  expects (x_expression ascii (lit "foo/ 1")) XImpl.
Proof. vm_compute. tauto. Qed.

(** ** Findings *)
(** A word with a slash at its end, as when a path is being typed, makes the server panic: a path is expected, and what to offer for it is
    not written. *)
Theorem C74_path_refuted : exists line, expects (x_expression ascii line) XPath /\ forall is_dir read_dir impls types wd, get ascii is_dir read_dir impls types line wd = Panic.
Proof. exists (lit "foo/"). split; [vm_compute; tauto|reflexivity]. Qed.

(** After an op and a space, where its arguments go, nothing is offered: the text could be a whole program, and no node of it has the last
    byte. *)
Theorem C74_space_refuted : exists line, (exists e, x_expression ascii line = XOk [] e) /\ forall is_dir read_dir impls types wd, get ascii is_dir read_dir impls types line wd = Ok None.
Proof. exists (lit "filter "). split; [eexists; reflexivity|reflexivity]. Qed.

(** In the body of a definition, where another term, or the brace, is to come, nothing is offered, although a term is expected there in any
    other braces. *)
Theorem C74_body_refuted : exists h w s, w_head ascii h /\ spaces w /\ expects (x_definition ascii (h ++ w ++ lit "{" ++ s)) XNone /\ expects (x_expression ascii (lit "filter " ++ lit "{" ++ s)) XTerm.
Proof. exists (lit "def foo Table (x:Num)"), (lit " "), (lit " filter "). split; [apply C74_body_example|]. split; [spc|]. split; vm_compute; tauto. Qed.
