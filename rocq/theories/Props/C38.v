(** C38: parsing an expression inverts writing it, and always ends. *)
From Coq Require Import String List ZArith NArith Bool Arith.
From Verif Require Import Model.Base Model.Utf Model.Ast Model.Parse Spec.ParseSpec Proofs.ParseSamples Proofs.ParseMainProofs.
Import ListNotations.

(** Any text gives an expression, an error or a failure. *)
Theorem C38_stops : forall k line, expression k line <> PFuel.
Proof. exact expression_stops. Qed.
Print Assumptions C38_stops.

(** Spans lie in the line and cover the text of their part; the parts lie one after the other. *)
Theorem C38_spans : forall k line r e, expression k line = POk r e -> sp_expr line 0 (byte_len line) e.
Proof. exact expression_spans. Qed.
Print Assumptions C38_spans.

(** Any way of writing a tree is read as that tree. *)
Theorem C38_round_trip : forall k e s, sane k -> w_expr k e s -> exists e', expression k s = POk [] e' /\ er_expr e' = er_expr e.
Proof. exact round_trip. Qed.
Print Assumptions C38_round_trip.

Theorem C38_one_tree : forall k e1 e2 s, sane k -> w_expr k e1 s -> w_expr k e2 s -> er_expr e1 = er_expr e2.
Proof. exact one_tree. Qed.
Print Assumptions C38_one_tree.

Definition tg (s : string) : tag := Tag 0 0 (lit s).
Definition single (s : string) : opref := OpSingle (tg s).
Definition inner : expr := Expr (tg "") [BPrefix (single "get") [TArg (AVar (tg "x"))] None None; BPrefix (single "=") [TArg (ANum 5 (tg "5"))] None None] None.
Definition tree : expr := Expr (tg "")
  [ BPrefix (single "filter") [TFlag (tg "exact"); TArg (AExpr inner)] None (Some (tg "Table"));
    BPrefix (single "pick")
      [TArg (AIdent (tg "two words"));
       TArg (AExpr (Expr (tg "") [BDot (tg ".") (AVar (tg "y")) (tg "z") None] None));
       TArg (AExpr (Expr (tg "") [BPrefix (single "len") [] None None] None))] (Some (tg "Table")) None ] None.
Definition written : str := lit "filter:Table --exact {get $x | = 5}| :Table pick 'two words' $y.z len ".

Ltac inl := cbn; repeat (first [left; reflexivity|right]); fail.
Ltac spc := intros c H; cbn in H; repeat (destruct H as [<-|H]; [cbn; tauto|]); destruct H.
Ltac nm := split; [do 2 eexists; split; reflexivity|intros c H; cbn in H; repeat (destruct H as [<-|H]; [left; reflexivity|]); destruct H].
Ltac wrd := split; [discriminate|intros c H; cbn in H; repeat (destruct H as [<-|H]; [split; [reflexivity|intros Z; cbn in Z; repeat (destruct Z as [Z|Z]; [discriminate|]); destruct Z]|]); destruct H].
Ltac gp := split; [discriminate|spc].

Example C38_example : w_expr ascii tree written /\ exists e, expression ascii written = POk [] e /\ er_expr e = er_expr tree.
Proof.
  split.
  - split; [reflexivity|].
    apply (@w_blocks_more ascii _ _ [] (lit "filter:Table --exact {get $x | = 5}") [] (lit " :Table pick 'two words' $y.z len ")).
    + spc.
    + apply (@w_prefix ascii _ _ None (Some (tg "Table")) [] [] (lit "filter") (lit ":Table") (lit " --exact {get $x | = 5}")); [reflexivity|reflexivity|intros H; now destruct H|split; [reflexivity|right; constructor; nm]|split; [nm|reflexivity]|].
      apply (@w_terms_cons ascii _ _ (lit " ") (lit "--exact") (lit " {get $x | = 5}")); [gp|apply w_tflag; [wrd|intros c H r Hr; cbn in H; destruct H as [<-|[<-|[]]]; discriminate]|].
      apply (@w_terms_cons ascii _ _ (lit " ") (lit "{get $x | = 5}") []); [gp| |constructor]. apply w_targ with true.
      apply (@w_braces ascii _ _ None (lit "get $x | = 5") []); [|reflexivity].
      apply (@w_blocks_more ascii _ _ [] (lit "get $x") (lit " ") (lit " = 5")); [spc| |spc|].
      * apply (@w_prefix ascii _ _ None None [] [] (lit "get") [] (lit " $x")); [reflexivity|reflexivity|intros H; now destruct H|split; [reflexivity|right; constructor; nm]|reflexivity|].
        apply (@w_terms_cons ascii _ _ (lit " ") (lit "$x") []); [gp| |constructor]. apply w_targ with true. apply w_var. nm.
      * apply (@w_blocks_one ascii _ (lit " ") (lit "= 5") []); [spc| |spc].
        apply (@w_prefix ascii _ _ None None [] [] (lit "=") [] (lit " 5")); [reflexivity|reflexivity|intros H; now destruct H|split; [reflexivity|left; inl]|reflexivity|].
        apply (@w_terms_cons ascii _ _ (lit " ") (lit "5") []); [gp| |constructor]. apply w_targ with false. apply w_num; [wrd|reflexivity].
    + spc.
    + apply (@w_blocks_one ascii _ (lit " ") (lit ":Table pick 'two words' $y.z len") (lit " ")); [spc| |spc].
      apply (@w_prefix ascii _ _ (Some (tg "Table")) None (lit ":Table") (lit " ") (lit "pick") [] (lit " 'two words' $y.z len")); [split; [nm|reflexivity]|discriminate|intros _; gp|split; [reflexivity|right; constructor; nm]|reflexivity|].
      apply (@w_terms_cons ascii _ _ (lit " ") (lit "'two words'") (lit " $y.z len")); [gp| |].
      { apply w_targ with true. apply w_quoted. exists 39%N. split; [inl|]. split; [|reflexivity]. intros I. cbn in I. repeat (destruct I as [I|I]; [discriminate|]). destruct I. }
      apply (@w_terms_cons ascii _ _ (lit " ") (lit "$y.z") (lit " len")); [gp| |].
      { apply w_targ with true. apply (@w_dot ascii _ _ _ _ None (lit "$y") (lit "z") []); [apply w_var; nm|reflexivity|left; split; [nm|reflexivity]|reflexivity]. }
      apply (@w_terms_bare ascii _ _ _ None (lit " ") (lit "len")); [gp| |reflexivity|].
      { apply (@w_prefix ascii _ _ None None [] [] (lit "len") [] []); [reflexivity|reflexivity|intros H; now destruct H|split; [reflexivity|right; constructor; nm]|reflexivity|constructor]. }
      intros a b E Hb _. destruct Hb as [->|(b' & ->)]; [rewrite app_nil_r in E; subst a; reflexivity|].
      exfalso. assert (I : In 58%N (lit "len")) by (change (lit "len") with (tg_str (tg "len")); rewrite E; apply in_or_app; right; now left).
      cbn in I. repeat (destruct I as [I|I]; [discriminate|]). destruct I.
  - eexists. split; vm_compute; reflexivity.
Qed.

Example C38_errors : expression ascii (lit "foo {") = PFail /\ expression ascii (lit "") = PErr /\ expression ascii (lit "foo | ") = PErr /\
  expression ascii (lit "foo }") = PFail.
Proof. repeat split; vm_compute; reflexivity. Qed.

(** Findings: a path from the root is read as a division; the last bar of an expression can be missing; a bare word that starts
    with the name of an op is read as that op. *)
Definition shape (r : pres expr) : option expr := match r with POk _ e => Some (er_expr e) | _ => None end.
Theorem C38_rooted_refuted : exists s, s = lit "/foo" /\
  shape (expression ascii s) = Some (Expr (tg "") [BPrefix (single "/") [TArg (AIdent (tg "foo"))] None None] None).
Proof. eexists. split; [reflexivity|]. vm_compute. reflexivity. Qed.
Theorem C38_bar_refuted : exists s, s = lit "len --" /\
  shape (expression ascii s) = Some (Expr (tg "") [BPrefix (single "len") [] None None;
    BPrefix (single "-") [TArg (AExpr (Expr (tg "") [BPrefix (single "-") [] None None] None))] None None] None).
Proof. eexists. split; [reflexivity|]. vm_compute. reflexivity. Qed.
Theorem C38_word_refuted : exists s, s = lit "open ls.csv" /\
  shape (expression ascii s) = Some (Expr (tg "") [BPrefix (single "open")
    [TArg (AExpr (Expr (tg "") [BPrefix (single "ls") [TArg (AExpr (Expr (tg "") [BPrefix (single ".") [TArg (AIdent (tg "csv"))] None None] None))] None None] None))] None None] None).
Proof. eexists. split; [reflexivity|]. vm_compute. reflexivity. Qed.
