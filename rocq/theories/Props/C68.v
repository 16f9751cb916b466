(** C68: what each intrinsic takes and returns. *)
From Coq Require Import String List ZArith NArith Bool Arith Permutation.
From Verif Require Import Model.Base Model.Value Model.Ast Model.Registry Model.AstGraph Model.TyBuild Spec.AstGraphSpec Spec.TyBuildSpec Spec.RegistrySpec Spec.LocalsSpec
  Model.Compile Model.ArgApi Model.Ops Spec.CompileSpec Spec.ArgSpec Spec.ParamSpec Spec.OpSpec Proofs.RegistrySamples Proofs.OpsSamples Proofs.OpsTop.
From Verif Require Model.TyGraph Model.Locals.
Import ListNotations.

(** An intrinsic compiles, to this code and with this output type, just if its flags and arguments are as the table of OpSpec.v has it
    for the type of the input: the arguments being those that are written, taking the types they are supplied and returning the types
    they have to.  Nothing that is written is left out, up to 256 flags and 256 arguments.  (For the converse every argument has to have
    entries in the type graph; they all do.) *)
Theorem C68_compiles : forall s e root anon g tg, start s e root anon = Ok (g, tg) ->
  forall rep types format inject (c : comp code ArgApi.binding cparam) cmd t b key op f o fl u x,
  node g cmd = Some (NIntrinsic op f) -> op_of f = Some o -> In (key, cmd) (keyed g b) -> flag_texts g b fl ->
  ((exists r, run_intrinsic g c cmd t (ops_prog g rep types format inject c cmd t) = Good r /\ r_res r = inl (u, x)) ->
   compiles g rep types format (inject c) c b o fl t (firstn 256 (args_below g b)) u x) /\
  ((forall n, In n (args_below g b) -> kn c n TyGraph.In_ <> None /\ kn c n TyGraph.Out_ <> None) ->
   compiles g rep types format (inject c) c b o fl t (firstn 256 (args_below g b)) u x ->
   exists r, run_intrinsic g c cmd t (ops_prog g rep types format inject c cmd t) = Good r /\ r_res r = inl (u, x)).
Proof. exact run_iff. Qed.
Print Assumptions C68_compiles.

(** All intrinsics only pass on the arguments they are given, as C67 asks for. *)
Theorem C68_fair : forall g rep types format inject (c : comp code ArgApi.binding cparam) cmd t, fair g (ops_prog g rep types format inject c cmd t).
Proof. exact ops_fair. Qed.
Print Assumptions C68_fair.

(** A compiled program is a pipeline, as in C63 and C67: every intrinsic in it takes and returns what the table says, and calls set the
    parameters of definitions. *)
Theorem C68_root : forall s e root anon g tg, start s e root anon = Ok (g, tg) -> forall rep types format inject, has_literal_types (df_types s) -> distinct_params (df_impls s) ->
  (forall t, key_of (rep t) = t) -> forall order shuffle seeds, (forall m, Permutation (order m) m) -> forall fuel (c : comp code ArgApi.binding cparam) stack,
  compile_root g (fun c cmd t => shown (run_intrinsic g c cmd t (ops_prog g rep types format inject c cmd t)))
    (fun c d t => shown (call_args g c d t)) (fun c d => shown (map_params g rep c d)) order shuffle fuel tg seeds = Good (c, stack) ->
  exists v, settles c 0 TyGraph.Out_ v /\ runs g (takes g rep types format inject c) (calls g c) (children g 0) root v stack.
Proof. exact ops_root. Qed.
Print Assumptions C68_root.

(** The same for every expression compiled along the way. *)
Theorem C68_exprs : forall s e root anon g tg, start s e root anon = Ok (g, tg) -> forall rep types format inject, has_literal_types (df_types s) -> distinct_params (df_impls s) ->
  (forall t, key_of (rep t) = t) -> forall order shuffle seeds, (forall m, Permutation (order m) m) -> forall fuel brk (c0 c : comp code ArgApi.binding cparam), fresh code _ _ g order tg seeds = Good c0 ->
  compile g (fun c cmd t => shown (run_intrinsic g c cmd t (ops_prog g rep types format inject c cmd t)))
    (fun c d t => shown (call_args g c d t)) (fun c d => shown (map_params g rep c d)) order shuffle fuel c0 brk = Good c ->
  forall x stack, has_stack c x stack -> exists t v, settles c x TyGraph.In_ t /\ settles c x TyGraph.Out_ v /\
    runs g (takes g rep types format inject c) (calls g c) (children g x) t v stack.
Proof. exact ops_exprs. Qed.
Print Assumptions C68_exprs.

(** An intrinsic that is listed for a type takes nothing else.  ([pick] does not check; it is only listed for tables.) *)
Theorem C68_keys : forall rep named format ready want x k o, In (x, Some k, o) intrinsics -> o <> OPick ->
  forall fl t l u d, sig rep named format ready want o fl t l u d -> t = key_of k.
Proof. exact keys_ok. Qed.
Print Assumptions C68_keys.

(** No name is listed twice for a type. *)
Theorem C68_once : NoDup (map fst intrinsics).
Proof. exact names_once. Qed.
Print Assumptions C68_once.

(** ** Examples *)
Definition lit_arg (n : nat) (i o : tkey) : argument := Argument n i o (HLit n o).
(** [range 0 9 | filter { get i --Num | eq 3 } | len] *)
Example C68_example : has_literal_types few /\ distinct_params (some_of ["range"; "filter"; "get"; "eq"; "len"]%string) /\ (forall t, key_of (rep t) = t) /\
  run ["range"; "filter"; "get"; "eq"; "len"]%string (ex [blk "range" [num 0; num 9]; blk "filter" [sub [blk "get" [id "i"; flag "Num"]; blk "eq" [num 3]]]; blk "len" []]) =
  Some (Good (Some KNum, [Prim _ KTab (Code ORange [] [lit_arg 2 KNil KNum; lit_arg 3 KNil KNum] [] None None);
    Prim _ KTab (Code OFilterTab [] [Argument 5 KTabRow KBool (HExpr 5 KBool)] [] None None); Prim _ KNum (Code OLenTab [] [] [] None None)])).
Proof.
  split; [|split; [|split; [|vm_compute; reflexivity]]].
  - intros t [<-|[<-|[<-|[<-|[]]]]]; [exists (lit "Nil")|exists (lit "Bool")|exists (lit "Num")|exists (lit "Str")]; vm_compute; reflexivity.
  - intros x k t d I R. vm_compute in I. repeat (destruct I as [I|I]; [injection I as <- <-; cbn in R; repeat (destruct R as [R|R]; [discriminate|]); destruct R|]). destruct I.
  - intros [| | | | | |n]; try reflexivity. unfold rep. destruct (str_eqb_spec n (lit "Ord")) as [->|N]; reflexivity.
Qed.
(** The tables are entered without a debug assertion failing. *)
Example C68_entered : exists m, add_all [] numbered = Ok m /\ length m = 51.
Proof. eexists. split; [vm_compute; reflexivity|reflexivity]. Qed.
(** [fold 0 { + 1 }] is in the table, with a string for the second argument it is not. *)
Example C68_table : sig rep named (fun _ => true) (ready_in compares) None OFold [] KTab [Shape KNil KNum None; Shape KNum KNum None] KNum none /\
  ~ exists u d, sig rep named (fun _ => true) (ready_in compares) None OFold [] KTab [Shape KNil KNum None; Shape KNum KStr None] u d.
Proof.
  split; [apply sig_fold; split; reflexivity|]. intros (u & d & S). inversion S; subst; try (cbn in *; intuition discriminate).
  repeat match goal with H : to _ _ _ |- _ => destruct H as (? & ?) end. cbn in *. congruence.
Qed.

(** A variable need not have the type of what it is set to: [let #t $x 5 $x | \ $x] compiles, to something that is said to return a Bool and
    returns a number.  Both pairs create a variable in the same place, and new_var (locals_graph.rs:221-243) gives back the one there
    is, whatever its type.  The check in set_data (var.rs:93-99) is a debug assertion. *)
Theorem C68_let_refuted : exists e a b h, run ["let"; "\"]%string e = Some (Good (Some KBool,
  [Prim _ KNil (Code OLet [] [a; b] [(TBool, Some 0); (TBool, Some 0)] None None); Prim _ KBool (Code OIn [] [h] [] None None)])) /\
  ar_out b = KNum /\ ar_hold h = HVar TBool 0.
Proof.
  exists (ex [blk "let" [yes; var "x"; num 5; var "x"]; blk "\" [var "x"]]), (lit_arg 2 KNil KBool), (lit_arg 4 KNil KNum), (Argument 7 KNil KBool (HVar TBool 0)).
  split; [vm_compute; reflexivity|split; reflexivity].
Qed.

(** A value that is written out is no argument of [map] (nor the last one of [filter] or [ren-with]), unless a flag gives a type for the
    column that is not looked at: [map i 5] is rejected, [map i --Num 5] and [map i { + 5 }] are not.  What a literal takes is not settled
    to any type (tygraph.rs:172-179), and here nothing says what is supplied (morphism.rs:892-898), so that [concrete] fails (arg.rs:168-203). *)
Theorem C68_literal_refuted : exists e1 e2 e3 er s2 s3, run ["range"; "map"]%string e1 = Some (Bad er) /\
  run ["range"; "map"]%string e2 = Some (Good (Some KTab, s2)) /\ run ["range"; "map"; "+"]%string e3 = Some (Good (Some KTab, s3)) /\
  e1 = ex [blk "range" [num 0; num 3]; blk "map" [id "i"; num 5]].
Proof.
  exists (ex [blk "range" [num 0; num 3]; blk "map" [id "i"; num 5]]), (ex [blk "range" [num 0; num 3]; blk "map" [id "i"; flag "Num"; num 5]]),
    (ex [blk "range" [num 0; num 3]; blk "map" [id "i"; sub [blk "+" [num 5]]]]).
  do 3 eexists. split; [vm_compute; reflexivity|]. split; [vm_compute; reflexivity|]. split; [vm_compute; reflexivity|reflexivity].
Qed.
