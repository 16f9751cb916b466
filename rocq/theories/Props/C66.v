(** C66: calls of user definitions set parameters to arguments. *)
From Coq Require Import String List ZArith NArith Bool Arith.
From Verif Require Import Model.Base Model.Value Model.Ast Model.Registry Model.AstGraph Model.TyBuild Model.Compile Model.ArgApi Spec.AstGraphSpec Spec.TyBuildSpec
  Spec.CompileSpec Spec.ArgSpec Proofs.RegistrySamples Proofs.ArgSamples Proofs.CallProofs.
From Verif Require Model.TyGraph Model.Locals.
Import ListNotations.

(** The parameters of a call are found to be set exactly if there are no flags, as many arguments as parameters, all values among them
    have the type they should, and the body has a variable for each.  They are set in order. *)
Theorem C66_params : forall P g rep s e root anon tg, start s e root anon = Ok (g, tg) ->
  forall (c : comp P binding cparam) d t ps o k body cs, node g d = Some (NDef t ps) -> In (k, d) (keyed g o) -> children g d = [body] ->
  (forall n, In n (args_below g o) -> kn c n TyGraph.In_ <> None) ->
  ((exists asks, map_params g rep c d = Good (inl (Success cs), asks)) <-> flags_below g o = [] /\ sets g c body 0 ps (firstn 256 (args_below g o)) cs).
Proof. exact params_iff. Qed.
Print Assumptions C66_params.

(** Flags are rejected. *)
Theorem C66_flags : forall P g rep s e root anon tg, start s e root anon = Ok (g, tg) ->
  forall (c : comp P binding cparam) d t ps o k, node g d = Some (NDef t ps) -> In (k, d) (keyed g o) -> flags_below g o <> [] ->
  map_params g rep c d = Good (inr err_flags, []).
Proof. exact params_flags. Qed.
Print Assumptions C66_flags.

(** A definition of more than 256 parameters is never set any. *)
Theorem C66_many : forall P g rep s e root anon tg, start s e root anon = Ok (g, tg) ->
  forall (c : comp P binding cparam) d t ps cs asks, node g d = Some (NDef t ps) -> map_params g rep c d = Good (inl (Success cs), asks) -> length ps <= 256.
Proof. exact params_many. Qed.
Print Assumptions C66_many.

(** Setting parameters only asks for variables in the body, each named as its parameter, of the type of its argument or standing for its
    argument; and for arguments to return what they should. *)
Theorem C66_asks : forall P g rep s e root anon tg, start s e root anon = Ok (g, tg) ->
  forall (c : comp P binding cparam) d t ps o k body r asks, node g d = Some (NDef t ps) -> In (k, d) (keyed g o) -> children g d = [body] ->
  map_params g rep c d = Good (r, asks) -> forall a, In a asks -> may_ask g rep c body ps (args_below g o) a.
Proof. exact params_asks. Qed.
Print Assumptions C66_asks.

(** What is passed is what is written. *)
Theorem C66_args : forall P g (c : comp P binding cparam) d t bs asks args, get_args g d = Ok args -> call_args g c d t = Good (inl bs, asks) ->
  asks = [] /\ Forall2 (passes g c args t) (match alookup Nat.eqb d (c_params c) with Some ps => ps | None => [] end) bs.
Proof. exact call_args_ok. Qed.
Print Assumptions C66_args.

(** A compiled expression is its blocks in order, as in C63, and each call passes to the parameters of its definition the arguments that
    are written, unless the parameters were never set. *)
Theorem C66_root : forall P s e root anon g tg rep intr order shuffle fuel seeds (c : comp P binding cparam) stack,
  start s e root anon = Ok (g, tg) -> has_literal_types (df_types s) ->
  compile_root g intr (fun c d t => shown (call_args g c d t)) (fun c d => shown (map_params g rep c d)) order shuffle fuel tg seeds = Good (c, stack) ->
  exists v, settles c 0 TyGraph.Out_ v /\ runs g (answered intr c) (called_with g c) (children g 0) root v stack.
Proof. exact call_root. Qed.
Print Assumptions C66_root.

(** ** Examples *)
Definition foo (ps : list (string * option string)) (bs : list Ast.block) : str * keys := any "foo" ps bs.
(** [def foo (x:Num e:Expr) { + $x $e }]: [\ 5 | foo 2 { + 1 }] *)
Example C66_example : has_literal_types few /\
  run [foo [("x", Some "Num"); ("e", Some "Expr")]%string [blk "+" [var "x"; var "e"]]] (ex [blk "\" [num 5]; blk "foo" [num 2; sub [blk "+" [num 1]]]]) =
  Some (Good (Some KNum, [Prim _ KNum (CIn (Argument 2 KNil KNum (HLit 2 KNum)));
    Call KNum [(TNum, 0, Argument 4 KNum KNum (HLit 4 KNum))]
      [Prim _ KNum (CAdd [Argument 12 KNum KNum (HVar TNum 0); Argument 5 KNum KNum (HExpr 5 KNum)])]])) /\
  run [foo [("x", Some "Num")]%string [blk "+" [num 1]]] (ex [blk "\" [num 5]; blk "foo" [num 2; num 3]]) = Some (Bad err_args).
Proof. split; [exact few_literals|]. split; vm_compute; reflexivity. Qed.

(** Parameters may never be set, and then arguments are not looked at. [def foo (x:Str) { + 1 }]: [\ 5 | foo 2], [\ 5 | foo 2 3 4] compile; and so does
    [\ 5 | foo 2] for [def foo (x:Str y) { + 1 }]. The argument is not a Str, and params.rs:190-194 takes that for a type that is not known
    yet, stopping there; the call is then compiled with no parameters set (mod.rs:524-540), which only fails if the body uses one. *)
Theorem C66_unset_refuted : exists p1 p2,
  (forall args, In args [[num 2]; [num 2; num 3; num 4]] ->
    run [foo [p1] [blk "+" [num 1]]] (ex [blk "\" [num 5]; blk "foo" args]) =
    Some (Good (Some KNum, [Prim _ KNum (CIn (Argument 2 KNil KNum (HLit 2 KNum)));
      Call KNum [] [Prim _ KNum (CAdd [Argument (8 + length args) KNum KNum (HLit (8 + length args) KNum)])]]))) /\
  run [foo [p1; p2] [blk "+" [num 1]]] (ex [blk "\" [num 5]; blk "foo" [num 2]]) =
    Some (Good (Some KNum, [Prim _ KNum (CIn (Argument 2 KNil KNum (HLit 2 KNum)));
      Call KNum [] [Prim _ KNum (CAdd [Argument 9 KNum KNum (HLit 9 KNum)])]])).
Proof.
  exists ("x"%string, Some "Str"%string), ("y"%string, None). split; [intros args [<-|[<-|[]]]|]; vm_compute; reflexivity.
Qed.

(** Introducing a variable named as a parameter that is an expression writes one variable and reads another. [def foo (x:Expr) { let 5 $x | + $x }]:
    [\ 1 | let $y | foo $y | \ $y] compiles to a [let] that sets slot 2 and a [+] that reads slot 1, which nothing sets. The argument
    [let] is to create a variable for is followed to what it stands for (pipeline.rs:411-412, arg.rs:48-66). *)
Theorem C66_shadow_refuted : exists ds e s1 s2 s4, run ds e =
  Some (Good (Some KNum, [s1; s2; Call KNum [] [Prim _ KNum (CLet [(TNum, Some 2, Argument 14 KNum KNum (HLit 14 KNum))] None);
    Prim _ KNum (CAdd [Argument 17 KNum KNum (HVar TNum 1)])]; s4])).
Proof.
  exists [foo [("x", Some "Expr")]%string [blk "let" [num 5; var "x"]; blk "+" [var "x"]]],
    (ex [blk "\" [num 1]; blk "let" [var "y"]; blk "foo" [var "y"]; blk "\" [var "y"]]). do 3 eexists. vm_compute. reflexivity.
Qed.

(** The variables an intrinsic makes for its argument are not there for an expression that is passed on. [def foo (x:Expr) { fold 0 $x }]:
    [tab | foo { + { \ $row | get a --Num } }] is an error, there is no [$row], while [tab | fold 0 { + { \ $row | get a --Num } }] compiles. [$row] is
    added to the argument as written, [$x], and not to what that stands for (blk.rs:212-220). *)
Theorem C66_row_refuted : exists arg, 
  run [foo [("x", Some "Expr")]%string [blk "fold" [num 0; var "x"]]] (ex [blk "tab" []; blk "foo" [arg]]) = Some (Bad err_no_var) /\
  exists stack, run [] (ex [blk "tab" []; blk "fold" [num 0; arg]]) = Some (Good (Some KNum, stack)).
Proof.
  exists (sub [blk "+" [sub [blk "\" [var "row"]; blk "get" [ident "a"; flag "Num"]]]]). split; [vm_compute; reflexivity|]. eexists. vm_compute. reflexivity.
Qed.
