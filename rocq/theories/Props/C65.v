(** C65: the arguments intrinsics are given. *)
From Coq Require Import String List ZArith NArith Bool Arith.
From Verif Require Import Model.Base Model.Value Model.Ast Model.Registry Model.AstGraph Model.TyBuild Model.Compile Model.ArgApi Spec.AstGraphSpec Spec.TyBuildSpec
  Spec.CompileSpec Spec.ArgSpec Proofs.RegistrySamples Proofs.ArgSamples Proofs.ArgProofs Proofs.CallProofs.
From Verif Require Model.TyGraph Model.Locals.
Import ListNotations.

(** An argument that is the name of another stands for that one, through any number of names. *)
Theorem C65_pointer : forall P g (c : comp P binding cparam) n m, follow g (length (g_nodes g)) c n = Good m <-> stands g c n m.
Proof. exact follow_iff. Qed.
Print Assumptions C65_pointer.

(** The argument an intrinsic ends up with is what is written there, takes the type it was said to be supplied and returns the type
    it was said to return, both being the only types left for it. *)
Theorem C65_argument : forall P g (c : comp P binding cparam) n blk b l b' a,
  new_arg g c n blk = Good b -> meets b l b' -> concrete g c b' = Good (inl a) -> is_argument g c n l a.
Proof. exact argument_ok. Qed.
Print Assumptions C65_argument.

(** Any argument of which that is so is accepted, and nothing is asked for. *)
Theorem C65_accepts : forall P g (c : comp P binding cparam) n blk m i o h, stands g c n m ->
  (typed c n TyGraph.In_ i \/ kn c n TyGraph.In_ = Some TyGraph.Any) -> typed c n TyGraph.Out_ o -> holds g c m h -> hold_ty h = o ->
  exists b b1, new_arg g c n blk = Good b /\ ArgApi.supplied b (Some i) = (inl b1, []) /\ returns b1 o = Good (inl b1, []) /\
    concrete g c b1 = Good (inl (Argument m i o h)).
Proof. exact accepted. Qed.
Print Assumptions C65_accepts.

(** Saying what is supplied fails if another type is settled on, or none yet; in the latter case the type is asked for if it is one of those
    that are left. *)
Theorem C65_supplied : forall P g (c : comp P binding cparam) n blk b t r asks, new_arg g c n blk = Good b -> ArgApi.supplied b (Some t) = (r, asks) ->
  (forall a, In a asks <-> exists m ts, a = AskInput m t /\ stands g c n m /\ open c n TyGraph.In_ ts /\ In t ts) /\
  (forall e, r = inr e <-> (e = err_in_ty /\ exists u, typed c n TyGraph.In_ u /\ u <> t) \/ (e = err_in_unknown /\ exists ts, open c n TyGraph.In_ ts)).
Proof. exact supplied_asks. Qed.
Print Assumptions C65_supplied.

(** The same for what is returned. *)
Theorem C65_returns : forall P g (c : comp P binding cparam) n blk b t r asks, new_arg g c n blk = Good b -> returns b t = Good (r, asks) ->
  (forall a, In a asks <-> exists m ts, a = AskReturns m t /\ stands g c n m /\ open c n TyGraph.Out_ ts /\ In t ts) /\
  (forall e, r = inr e <-> (e = err_out_ty /\ exists u, typed c n TyGraph.Out_ u /\ u <> t) \/ (e = err_out_unknown /\ exists ts, open c n TyGraph.Out_ ts)).
Proof. exact returns_asks. Qed.
Print Assumptions C65_returns.

(** In the end product the types are still those, and an argument that is an expression is compiled, to steps that return that type; if the
    expression is written at the very place, they are for the type the argument takes. *)
Theorem C65_compiled : forall P s e root anon g tg intr call_args map_params order shuffle fuel seeds brk (c0 c1 c : comp P binding cparam) n l a,
  start s e root anon = Ok (g, tg) -> has_literal_types (df_types s) ->
  fresh P binding cparam g order tg seeds = Good c0 -> compile g intr call_args map_params order shuffle fuel c0 brk = Good c ->
  grows c1 c -> at_ease c1 -> is_argument g c1 n l a ->
  settles c n TyGraph.Out_ (ar_out a) /\ (settles c n TyGraph.In_ (ar_in a) \/ kn c1 n TyGraph.In_ = Some TyGraph.Any) /\
  forall x t, ar_hold a = HExpr x t -> exists ss u, has_stack c x ss /\ settles c x TyGraph.In_ u /\
    runs g (answered intr c) (CompileSpec.supplied call_args map_params c) (children g x) u (ar_out a) ss /\
    (x = n -> kn c1 n TyGraph.In_ <> Some TyGraph.Any -> u = ar_in a).
Proof. exact arg_compiled. Qed.
Print Assumptions C65_compiled.

(** ** Examples *)
(** [\ 5 | let 7 $x | + $x { + 1 } 2 #i] *)
Example C65_example : has_literal_types few /\
  run [] (ex [blk "\" [num 5]; blk "let" [num 7; var "x"]; blk "+" [var "x"; sub [blk "+" [num 1]]; num 2; pin]]) =
  Some (Good (Some KNum, [Prim _ KNum (CIn (Argument 2 KNil KNum (HLit 2 KNum)));
    Prim _ KNum (CLet [(TNum, Some 0, Argument 4 KNum KNum (HLit 4 KNum))] None);
    Prim _ KNum (CAdd [Argument 7 KNum KNum (HVar TNum 0); Argument 8 KNum KNum (HExpr 8 KNum); Argument 9 KNum KNum (HLit 9 KNum); Argument 10 KNum KNum (HInput KNum)])])).
Proof. split; [exact few_literals|vm_compute; reflexivity]. Qed.

Definition with_expr : list (string * option string) := [("x", Some "Expr")]%string.
(** For an expression that is written elsewhere the last part fails. [def foo Num (x:Expr) { + $x }], [def foo Str (x:Expr) { \ 1 }]:
    [\ 1 | \ #i | foo { fold 0 { + 1 } }] compiles, and the [+] evaluates the [fold] on a number, although the [fold] is compiled for a table.
    Where two definitions could be meant, the type of the input of [+] is known before it is known that [$x] is the expression; the [+] then has
    the type of [$x] settled, and assign_variable_types (mod.rs:259-304) only ties a variable to what it stands for if its type is still open. *)
Theorem C65_expression_refuted : exists ds e n, run_at ds e n = Some (Good (Some KTab,
  [Prim _ KNum (CIn (Argument 2 KNil KNum (HLit 2 KNum))); Prim _ KNum (CIn (Argument 4 KNum KNum (HInput KNum)));
   Call KNum [] [Prim _ KNum (CAdd [Argument n KNum KNum (HExpr n KNum)])]])).
Proof.
  exists [(lit "foo", Keys [(TNum, udef "foo" (Some "Num"%string) with_expr [blk "+" [var "x"]]); (TStr, udef "foo" (Some "Str"%string) with_expr [blk "\" [num 1]])] None)],
    (ex [blk "\" [num 1]; blk "\" [pin]; blk "foo" [sub [blk "fold" [num 0; sub [blk "+" [num 1]]]]]]), 6. vm_compute. reflexivity.
Qed.
(** Where only one definition could be meant, the same panics the compiler: what is tied together cannot agree on a type, and tygraph.rs:745-810
    has [todo!] for that. [def foo (x:Expr) { + $x }]: [\ 1 | foo { fold 0 { + 1 } }]. Written directly, [\ 1 | + { fold 0 { + 1 } }] is a
    proper error. *)
Theorem C65_conflict_refuted : exists ds e, run ds e = Some (Crash Missing) /\
  run [] (ex [blk "\" [num 1]; blk "+" [sub [blk "fold" [num 0; sub [blk "+" [num 1]]]]]]) = Some (Bad hardt).
Proof.
  exists [any "foo" with_expr [blk "+" [var "x"]]], (ex [blk "\" [num 1]; blk "foo" [sub [blk "fold" [num 0; sub [blk "+" [num 1]]]]]]).
  split; vm_compute; reflexivity.
Qed.
