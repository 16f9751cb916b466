(** C67: what the bodies of definitions see, and what calls set it to. *)
From Coq Require Import String List ZArith NArith Bool Arith Permutation.
From Verif Require Import Model.Base Model.Value Model.Ast Model.Registry Model.AstGraph Model.TyBuild Spec.AstGraphSpec Spec.TyBuildSpec Spec.RegistrySpec Spec.LocalsSpec
  Model.Compile Model.ArgApi Spec.CompileSpec Spec.ArgSpec Spec.ParamSpec Proofs.RegistrySamples Proofs.ArgSamples Proofs.ParamSamples Proofs.ParamInv Proofs.VarTypes.
From Verif Require Model.TyGraph Model.Locals.
Import ListNotations.

(** A compiled expression is its blocks in order, as in C63; and each call sets every parameter of its definition that is a value to
    the argument written in its place, in the variable which the body has of this name and of the type the argument has.  Or else nothing in
    the body found any variable.  Whatever the intrinsics do with the arguments they are given. *)
Theorem C67_root : forall P s e root anon g tg rep progs order shuffle seeds, start s e root anon = Ok (g, tg) -> has_literal_types (df_types s) ->
  distinct_params (df_impls s) -> (forall t, key_of (rep t) = t) -> (forall m, Permutation (order m) m) -> (forall c cmd t, fair g (progs c cmd t)) ->
  forall fuel (c : comp P ArgApi.binding cparam) stack, compile_root g (fun c cmd t => shown (run_intrinsic g c cmd t (progs c cmd t)))
    (fun c d t => shown (call_args g c d t)) (fun c d => shown (map_params g rep c d)) order shuffle fuel tg seeds = Good (c, stack) ->
  exists v, settles c 0 TyGraph.Out_ v /\ runs g (answered (fun c cmd t => shown (run_intrinsic g c cmd t (progs c cmd t))) c) (calls g c) (children g 0) root v stack.
Proof. exact top_root. Qed.
Print Assumptions C67_root.

(** The same for every expression compiled along the way. *)
Theorem C67_exprs : forall P s e root anon g tg rep progs order shuffle seeds, start s e root anon = Ok (g, tg) -> has_literal_types (df_types s) ->
  distinct_params (df_impls s) -> (forall t, key_of (rep t) = t) -> (forall m, Permutation (order m) m) -> (forall c cmd t, fair g (progs c cmd t)) ->
  forall fuel brk (c0 c : comp P ArgApi.binding cparam), fresh P _ _ g order tg seeds = Good c0 -> compile g (fun c cmd t => shown (run_intrinsic g c cmd t (progs c cmd t)))
    (fun c d t => shown (call_args g c d t)) (fun c d => shown (map_params g rep c d)) order shuffle fuel c0 brk = Good c ->
  forall x stack, has_stack c x stack -> exists t v, settles c x TyGraph.In_ t /\ settles c x TyGraph.Out_ v /\
    runs g (answered (fun c cmd t => shown (run_intrinsic g c cmd t (progs c cmd t))) c) (calls g c) (children g x) t v stack.
Proof. exact top_exprs. Qed.
Print Assumptions C67_exprs.

(** Variables of a body are parameters: of the type of the argument, or another name of it. *)
Theorem C67_variables : forall P s e root anon g tg rep progs order shuffle seeds, start s e root anon = Ok (g, tg) -> has_literal_types (df_types s) ->
  distinct_params (df_impls s) -> (forall t, key_of (rep t) = t) -> (forall m, Permutation (order m) m) -> (forall c cmd t, fair g (progs c cmd t)) ->
  forall fuel brk (c0 c : comp P ArgApi.binding cparam), fresh P _ _ g order tg seeds = Good c0 -> compile g (fun c cmd t => shown (run_intrinsic g c cmd t (progs c cmd t)))
    (fun c d t => shown (call_args g c d t)) (fun c d => shown (map_params g rep c d)) order shuffle fuel c0 brk = Good c ->
  forall d t ps body y l, node g d = Some (NDef t ps) -> children g d = [body] -> declared c body y l ->
  exists j p n, parameter g d body j p n /\ fst p = y /\ serves c p n l.
Proof. exact top_variables. Qed.
Print Assumptions C67_variables.

(** Once anything in a body has found a variable, there are as many arguments as parameters and no flags, and every parameter has its
    variable. *)
Theorem C67_all : forall P s e root anon g tg rep progs order shuffle seeds, start s e root anon = Ok (g, tg) -> has_literal_types (df_types s) ->
  distinct_params (df_impls s) -> (forall t, key_of (rep t) = t) -> (forall m, Permutation (order m) m) -> (forall c cmd t, fair g (progs c cmd t)) ->
  forall fuel brk (c0 c : comp P ArgApi.binding cparam), fresh P _ _ g order tg seeds = Good c0 -> compile g (fun c cmd t => shown (run_intrinsic g c cmd t (progs c cmd t)))
    (fun c d t => shown (call_args g c d t)) (fun c d => shown (map_params g rep c d)) order shuffle fuel c0 brk = Good c ->
  forall d t ps body o k n x l, node g d = Some (NDef t ps) -> children g d = [body] -> In (k, d) (keyed g o) -> ahead g body n -> finds c n x l ->
  flags_below g o = [] /\ length ps = length (firstn 256 (args_below g o)) /\
  forall j p m, nth_error ps j = Some p -> nth_error (args_below g o) j = Some m -> exists l, declared c body (fst p) l /\ serves c p m l.
Proof. exact top_all. Qed.
Print Assumptions C67_all.

(** What is found is the closest variable of the name. *)
Theorem C67_scope : forall P s e root anon g tg rep progs order shuffle seeds, start s e root anon = Ok (g, tg) -> has_literal_types (df_types s) ->
  distinct_params (df_impls s) -> (forall t, key_of (rep t) = t) -> (forall m, Permutation (order m) m) -> (forall c cmd t, fair g (progs c cmd t)) ->
  forall fuel brk (c0 c : comp P ArgApi.binding cparam), fresh P _ _ g order tg seeds = Good c0 -> compile g (fun c cmd t => shown (run_intrinsic g c cmd t (progs c cmd t)))
    (fun c d t => shown (call_args g c d t)) (fun c d => shown (map_params g rep c d)) order shuffle fuel c0 brk = Good c ->
  forall n x l, finds c n x l -> exists b, ahead g b n /\ declared c b (tg_str x) l /\ forall m, ahead g b m -> ahead g m n -> m <> b -> forall l', ~ declared c m (tg_str x) l'.
Proof. exact top_scope. Qed.
Print Assumptions C67_scope.

(** A name of something else is the name of an argument that is written. *)
Theorem C67_points : forall P s e root anon g tg rep progs order shuffle seeds, start s e root anon = Ok (g, tg) -> has_literal_types (df_types s) ->
  distinct_params (df_impls s) -> (forall t, key_of (rep t) = t) -> (forall m, Permutation (order m) m) -> (forall c cmd t, fair g (progs c cmd t)) ->
  forall fuel brk (c0 c : comp P ArgApi.binding cparam), fresh P _ _ g order tg seeds = Good c0 -> compile g (fun c cmd t => shown (run_intrinsic g c cmd t (progs c cmd t)))
    (fun c d t => shown (call_args g c d t)) (fun c d => shown (map_params g rep c d)) order shuffle fuel c0 brk = Good c ->
  forall n x to, finds c n x (Locals.EPtr to) -> written g to.
Proof. exact top_points. Qed.
Print Assumptions C67_points.

(** A variable whose type is open gets the type of what is found; the name of an argument takes and returns what the argument does: the
    type graph joins their inputs, and their outputs (C30 says what that means). *)
Theorem C67_assigned : forall P g order (c c' : comp P ArgApi.binding cparam) b n x l ts, assign_variable_types g order c = Good (c', b) -> node g n = Some (NVar x) ->
  kn c n TyGraph.Out_ = Some (TyGraph.Inferred ts) -> 1 < length ts -> finds c n x l ->
  match l with
  | Locals.EVar t _ => settles c' n TyGraph.Out_ (key_of t)
  | Locals.EPtr to => In (TyGraph.Build_edge to n TyGraph.II) (TyGraph.edges (fst (c_tg c'))) /\ In (TyGraph.Build_edge to n TyGraph.OO) (TyGraph.edges (fst (c_tg c')))
  end.
Proof. exact assigned. Qed.
Print Assumptions C67_assigned.

(** ** Examples *)
Definition foo : str * keys := any "foo" [("x", Some "Num"); ("e", Some "Expr")]%string [blk "+" [var "x"; var "e"]].
Definition prg : expr := ex [blk "\" [num 5]; blk "foo" [num 2; sub [blk "+" [num 1]]]].
(** [def foo (x:Num e:Expr) { + $x $e }]: [\ 5 | foo 2 { + 1 }].  The body, node 10, has a variable for the number, and a name for the expression; the
    uses, nodes 12 and 13, find these.  The argument, node 5, does not see the parameters. *)
Definition seen : option (list (res Locals.elocal)) :=
  match start (Defs (foo :: base) few) prg KNil [] with
  | Ok (g, tg) => match compile_root g (ArgSamples.intr g) (cargs g) (mparams g) (fun m => m) (fun l => l) 60 tg [] with
                  | Good (c, _) => Some [Locals.get (c_lg c) 12 (lit "x"); Locals.get (c_lg c) 13 (lit "e"); Locals.get (c_lg c) 5 (lit "x")]
                  | _ => None end
  | _ => None
  end.
Example C67_example : has_literal_types few /\ distinct_params (foo :: base) /\ (forall t, key_of (rep t) = t) /\ (forall g c cmd t, fair g (program g c cmd t)) /\
  seen = Some [Ok (Locals.EVar TNum 0); Ok (Locals.EPtr 5); Err 2].
Proof.
  split; [exact few_literals|]. split; [|split; [exact rep_key|split; [exact samples_fair|vm_compute; reflexivity]]].
  intros x k t d I R. cbn in I. repeat (destruct I as [I|I]; [injection I as <- <-; cbn in R; repeat (destruct R as [R|R]; [try discriminate|]); try contradiction|]); try contradiction.
  injection R as <- <-. cbn. repeat constructor; cbn; intuition discriminate.
Qed.

(** After some rounds the uses are open, and the variables are found. *)
Fixpoint rounds (g : graph) (n : nat) (c : comp code ArgApi.binding cparam) : out (comp code ArgApi.binding cparam) :=
  match n with 0 => Good c | S n => let! c := round g (ArgSamples.intr g) (cargs g) (mparams g) (fun m => m) (fun l => l) (fun _ _ => NoFuel) c in rounds g n c end.
Definition early (n : nat) : option (list (res Locals.elocal) * list (option (TyGraph.kn tkey)) * bool) :=
  match start (Defs (foo :: base) few) prg KNil [] with
  | Ok (g, tg) => match fresh _ _ _ g (fun m => m) tg [] with
                  | Good c => match rounds g n c with
                              | Good c => Some ([Locals.get (c_lg c) 12 (lit "x"); Locals.get (c_lg c) 13 (lit "e")], [kn c 12 TyGraph.Out_; kn c 13 TyGraph.Out_],
                                   match assign_variable_types g (fun m => m) c with Good _ => true | _ => false end)
                              | _ => None end
                  | _ => None end
  | _ => None
  end.
Example C67_assigned_example : let ts := TyGraph.Inferred [KTabRow; KTab; KStr; KNum; KBool; KNil] in
  early 3 = Some ([Ok (Locals.EVar TNum 0); Ok (Locals.EPtr 5)], [Some ts; Some ts], true).
Proof. vm_compute. reflexivity. Qed.
