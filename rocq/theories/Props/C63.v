(** C63: what the compile loop makes of an expression. *)
From Coq Require Import String List ZArith NArith Bool Arith Permutation.
From Verif Require Import Model.Base Model.Value Model.Ast Model.Registry Model.AstGraph Model.TyBuild Model.Compile Spec.AstGraphSpec Spec.TyBuildSpec
  Proofs.RegistrySamples Spec.CompileSpec Proofs.CompileTop.
From Verif Require Model.TyGraph Model.Locals.
Import ListNotations.

(** A compiled expression is its blocks in order: each is the implementation for the type the block before it returns, the first
    for the type of the input; a call is given the steps of the body of its definition, compiled for the type the call is given.
    Whatever intrinsics answer, and whatever arguments calls are given. *)
Theorem C63_root : forall P A Q s e root anon g tg intr call_args map_params order shuffle fuel seeds c (stack : list (cstep P A)),
  start s e root anon = Ok (g, tg) -> has_literal_types (df_types s) ->
  compile_root (Q := Q) g intr call_args map_params order shuffle fuel tg seeds = Good (c, stack) ->
  has_stack c 0 stack /\ exists v, settles c 0 TyGraph.In_ root /\ settles c 0 TyGraph.Out_ v /\
    runs g (answered intr c) (supplied call_args map_params c) (children g 0) root v stack.
Proof. exact root_runs. Qed.
Print Assumptions C63_root.

(** The same for every expression that was compiled along the way, such as arguments and bodies of definitions. *)
Theorem C63_exprs : forall P A Q s e root anon g tg intr call_args map_params order shuffle fuel seeds brk (c0 c : comp P A Q),
  start s e root anon = Ok (g, tg) -> has_literal_types (df_types s) ->
  fresh P A Q g order tg seeds = Good c0 -> compile g intr call_args map_params order shuffle fuel c0 brk = Good c ->
  forall x stack, has_stack c x stack -> exists t v, settles c x TyGraph.In_ t /\ settles c x TyGraph.Out_ v /\
    runs g (answered intr c) (supplied call_args map_params c) (children g x) t v stack.
Proof. exact exprs_runs. Qed.
Print Assumptions C63_exprs.

(** Compiling further never replaces what is compiled and never changes a type that is settled. *)
Theorem C63_grows : forall P A Q s e root anon g tg intr call_args map_params order shuffle seeds f1 f2 b1 b2 (c0 c1 c2 : comp P A Q),
  start s e root anon = Ok (g, tg) -> has_literal_types (df_types s) ->
  fresh P A Q g order tg seeds = Good c0 -> compile g intr call_args map_params order shuffle f1 c0 b1 = Good c1 ->
  compile g intr call_args map_params order shuffle f2 c1 b2 = Good c2 -> grows c0 c1 /\ grows c1 c2.
Proof. exact compile_grows. Qed.
Print Assumptions C63_grows.

(** The type graph is only ever changed in the ways C61 and C62 are about, so they hold throughout. *)
Theorem C63_history : forall P A Q s e root anon g tg intr call_args map_params order shuffle fuel seeds brk (c0 c : comp P A Q),
  start s e root anon = Ok (g, tg) -> has_literal_types (df_types s) ->
  fresh P A Q g order tg seeds = Good c0 -> compile g intr call_args map_params order shuffle fuel c0 brk = Good c ->
  exists xs, Forall (compiler_step g) xs /\ TyGraph.compile_history tkey_eqb (tg, []) xs = (c_tg c, Ok tt).
Proof. exact compile_hist. Qed.
Print Assumptions C63_history.

(** The loop stops where it was asked to. *)
Theorem C63_break : forall P A Q g intr call_args map_params order shuffle fuel brk (c0 c : comp P A Q),
  compile g intr call_args map_params order shuffle fuel c0 brk = Good c ->
  (exists stack, has_stack c brk stack) \/ (exists x, has_step c brk x).
Proof. exact compile_breaks. Qed.
Print Assumptions C63_break.

(** Fuel only matters if it runs out. *)
Theorem C63_fuel : forall P A Q g tg intr call_args map_params order shuffle f f' seeds, f <= f' ->
  compile_root (P := P) (A := A) (Q := Q) g intr call_args map_params order shuffle f tg seeds <> NoFuel ->
  compile_root g intr call_args map_params order shuffle f' tg seeds = compile_root g intr call_args map_params order shuffle f tg seeds.
Proof. exact root_more. Qed.
Print Assumptions C63_fuel.

(** mod.rs:445 panics, "error should be some if unsuccessful", exactly if no block is left whose input type is known. *)
Theorem C63_panic : forall P A Q s e root anon g tg intr call_args map_params order shuffle fuel seeds brk (c0 c c1 : comp P A Q),
  start s e root anon = Ok (g, tg) -> has_literal_types (df_types s) ->
  fresh P A Q g order tg seeds = Good c0 -> compile g intr call_args map_params order shuffle fuel c0 brk = Good c -> resolve c = Good c1 ->
  (compile_blocks g intr call_args order c1 = Crash NoError <->
   forall n op t, node g n = Some (NOp op) -> settles c1 n TyGraph.In_ t -> exists x, has_step c1 n x).
Proof. exact panic_iff. Qed.
Print Assumptions C63_panic.

(** So that it does not happen unless an output has to be guessed. *)
Theorem C63_no_panic : forall P A Q s e root anon g tg intr call_args map_params order shuffle fuel seeds,
  start s e root anon = Ok (g, tg) -> has_literal_types (df_types s) ->
  (forall c n t r, intr c n t = Some r -> r_infer r = false) -> (forall l, Permutation l (shuffle l)) ->
  compile_root (P := P) (A := A) (Q := Q) g intr call_args map_params order shuffle fuel tg seeds <> Crash NoError.
Proof. exact root_no_panic. Qed.
Print Assumptions C63_no_panic.

(** ** Examples *)
Definition tyent_of (n : string) (t : ty) : str * tyent := (lit n, TyBase t).
Definition few : types := [tyent_of "Nil" TNil; tyent_of "Bool" TBool; tyent_of "Num" TNum; tyent_of "Str" TStr; tyent_of "Table" TTab; tyent_of "TableRow" TTabRow].
Lemma few_literals : has_literal_types few.
Proof.
  intros t [<-|[<-|[<-|[<-|[]]]]]; [exists (lit "Nil")|exists (lit "Bool")|exists (lit "Num")|exists (lit "Str")]; vm_compute; reflexivity.
Qed.
Definition prim (n : nat) : impl := IIntrinsic LOgma (IBuiltin n).
(** [get] on rows and on anything, as pipeline.rs:6-7; [\] and [in] on anything; [+] on numbers and text; [row] makes a row of a table; [all]
    needs its arguments, given Nil; [pop] is a [get] on anything and [neg] a [+] on numbers; [inc]
    and [use] are defined: [def inc (n) { + $n }], [def use Num (x:Expr) { + 1 }]. *)
Definition table : defs := Defs
  [(lit "get", Keys [(TTabRow, prim 0)] (Some (prim 1))); (lit "\", Keys [] (Some (prim 2))); (lit "+", Keys [(TNum, prim 3); (TStr, prim 3)] None);
   (lit "in", Keys [] (Some (prim 5))); (lit "all", Keys [] (Some (prim 6))); (lit "pop", Keys [] (Some (prim 0))); (lit "neg", Keys [(TNum, prim 3)] None); (lit "row", Keys [(TTab, prim 4)] None); (lit "inc", Keys [] (Some (IDef (df file "inc" None ["n"%string] [blk "+" [var "n"]]))));
   (lit "use", Keys [(TNum, IDef (Defn file (lit "use") (Some (lit "Num")) [(lit "x", Some (lit "Expr"))] (ex [blk "+" [num 1]])))] None)] few.
Notation comp' := (comp nat nat nat).
(** [get] as in infer.rs:429-461: the output type if that is known, or else the input of the next block, or the output of the
    expression; [+] only takes numbers here. *)
Definition out_ty (g : graph) (c : comp') (op : nat) : option tkey :=
  match ty_at c op TyGraph.Out_ with
  | Some t => Some t
  | None => match Locals.op_next g op with
            | Ok (Some n) => ty_at c n TyGraph.In_
            | _ => match Locals.op_parent g op with Ok x => ty_at c x TyGraph.Out_ | _ => None end
            end
  end.
Definition soft : cerr := CErr false false 1.
Definition builtin (g : graph) (c : comp') (cmd : nat) (t : tkey) : option (reply (tkey * nat)) :=
  Some match node g cmd with
  | Some (NIntrinsic _ (IBuiltin 0)) =>
      match cmd_parent g cmd with
      | Ok op => match out_ty g c op with Some u => Reply (inl (u, 0)) [] false false | None => Reply (inr soft) [] true false end
      | _ => Reply (inr soft) [] false false
      end
  | Some (NIntrinsic _ (IBuiltin 2)) => Reply (inl (KTab, 2)) [] false false
  | Some (NIntrinsic _ (IBuiltin 3)) => if tkey_eqb t KNum then Reply (inl (KNum, 3)) [] false false else Reply (inr soft) [] false false
  | Some (NIntrinsic _ (IBuiltin 4)) => Reply (inl (KTabRow, 4)) [] false false
  | Some (NIntrinsic _ (IBuiltin 5)) => Reply (inl (t, 5)) [] false false
  | Some (NIntrinsic _ (IBuiltin 6)) =>
      match get_args g cmd with
      | Ok l => if forallb (fun e => has e (c_exprs c)) l then Reply (inl (KNum, 6)) [] false false
                else Reply (inr soft) (map (fun e => AskInput e KNil) (filter (fun e => negb (has_ty_at c e TyGraph.In_)) l)) false false
      | _ => Reply (inr soft) [] false false
      end
  | _ => Reply (inr soft) [] false false
  end.
Definition no_args (c : comp') (d : nat) (t : tkey) : option ((list nat + cerr) * list ask) := Some (inl [], []).
Definition no_params (c : comp') (d : nat) : option ((injection nat + cerr) * list ask) := Some (inl (Success []), []).
Definition run (e : expr) : option (out (option tkey * list (cstep nat nat))) :=
  match start table e KNil [] with
  | Ok (g, tg) => Some (let! r := compile_root g (builtin g) no_args no_params (fun m => m) (fun l => l) 40 tg [] in Good (ty_at (fst r) 0 TyGraph.Out_, snd r))
  | _ => None
  end.
Definition ident (x : string) : term := TArg (AIdent (tg x)).
Definition known : expr := ex [blk "\" [num 5]; blk "row" []; blk "get" [ident "x"]; blk "inc" [num 2]].
(** The output of [get x] is only found by guessing: no other type would have [inc] compile. *)
Example C63_example : has_literal_types (df_types table) /\
  run known = Some (Good (Some KNum, [Prim nat KTab 2; Prim nat KTabRow 4; Prim nat KNum 0; Call KNum [] [Prim nat KNum 3]])).
Proof. split; [exact few_literals|vm_compute; reflexivity]. Qed.

(** A guess can panic the compiler. [\ 5 | row | get x | in | + 2 | use { \ 5 | row | get y }], where [use] has no use for its argument:
    the output of [get y] is guessed first, being later in the graph, with its expression as the place to break. While a guess is tried
    the output of [get x] is guessed in turn, and with it everything is compiled that can be; the loop is still not at its breaking point,
    has no block left to try, so no error either, and mod.rs:445 unwraps the missing error. *)
Theorem C63_guess_refuted : exists e, run e = Some (Crash NoError).
Proof.
  exists (ex [blk "\" [num 5]; blk "row" []; blk "get" [ident "x"]; blk "in" []; blk "+" [num 2];
              blk "use" [sub [blk "\" [num 5]; blk "row" []; blk "get" [ident "y"]]]]).
  vm_compute. reflexivity.
Qed.

(** The limit on nested guesses also counts guesses that are done with: the compiler that comes of a successful trial goes on with
    the depth of the trial. An op takes five arguments with something to guess each, but with six of the same the error is
    [inference depth reached]. *)
Theorem C63_guess_count_refuted : exists arg,
  run (ex [blk "all" (repeat arg 5)]) = Some (Good (Some KNum, [Prim nat KNum 6])) /\ run (ex [blk "all" (repeat arg 6)]) = Some (Bad err_depth).
Proof.
  exists (sub [blk "pop" []; blk "in" []; blk "neg" []]).
  split; vm_compute; reflexivity.
Qed.
