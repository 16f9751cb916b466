(** C64: the compile loop comes to an end. *)
From Coq Require Import String List ZArith NArith Bool Arith Lia Permutation.
From Verif Require Import Model.Base Model.Value Model.Ast Model.Registry Model.AstGraph Model.TyBuild Model.Compile Spec.HaltSpec Proofs.RegistrySamples
  Proofs.HaltProofs Props.C63.
From Verif Require Model.ArgApi Model.Ops Spec.AstGraphSpec Spec.TyBuildSpec Spec.ParamSpec Spec.OpSpec Proofs.OpsSamples Proofs.HaltTop.
From Verif Require Model.TyGraph Model.Locals.
Import ListNotations.

(** From any state, towards any node, compiling ends, if what is not modelled is modest in what it asks for while it cannot go on:
    a settled side is not both told and obliged, variables are introduced once and under finitely many names, and no types are added. *)
Theorem C64_halts : forall P A Q g names told intr call_args map_params order shuffle,
  modest_intrinsics names told intr -> modest_calls names told call_args -> modest_params names told map_params ->
  (forall n, body g n -> told (n, TyGraph.In_) = true) ->
  forall (c : comp P A Q) brk, exists f, forall f', f <= f' ->
    compile g intr call_args map_params order shuffle f' c brk <> NoFuel /\
    compile g intr call_args map_params order shuffle f' c brk = compile g intr call_args map_params order shuffle f c brk.
Proof. exact compile_stops. Qed.
Print Assumptions C64_halts.

(** So does compiling an expression. *)
Theorem C64_root : forall P A Q g names told intr call_args map_params order shuffle,
  modest_intrinsics names told intr -> modest_calls names told call_args -> modest_params names told map_params ->
  (forall n, body g n -> told (n, TyGraph.In_) = true) ->
  forall tg seeds, exists f, forall f', f <= f' ->
    compile_root (P := P) (A := A) (Q := Q) g intr call_args map_params order shuffle f' tg seeds <> NoFuel /\
    compile_root g intr call_args map_params order shuffle f' tg seeds = compile_root g intr call_args map_params order shuffle f tg seeds.
Proof. exact root_stops. Qed.
Print Assumptions C64_root.

(** ogma's own intrinsics, calls and parameters are not that modest in every state, but they are in those a program gets to, and which sides
    are told only changes as types are settled: compiling a program ends, whatever the expression, the definitions and the code that is
    injected, and in whatever order hash tables are gone through.  (Left out are programs in which [Tuple] is given flags.) *)
Theorem C64_ops : forall s e root anon g tg, start s e root anon = Ok (g, tg) -> TyBuildSpec.has_literal_types (df_types s) -> ParamSpec.distinct_params (df_impls s) ->
  OpSpec.plain_tuples g -> forall rep types format inject, (forall t, key_of (rep t) = t) -> forall order shuffle seeds, (forall m, Permutation (order m) m) ->
  exists f, forall f', f <= f' ->
    compile_root g (fun c cmd t => ArgApi.shown (ArgApi.run_intrinsic g c cmd t (Ops.ops_prog g rep types format inject c cmd t))) (fun c d t => ArgApi.shown (ArgApi.call_args g c d t))
      (fun c d => ArgApi.shown (ArgApi.map_params g rep c d)) order shuffle f' tg seeds <> NoFuel /\
    compile_root g (fun c cmd t => ArgApi.shown (ArgApi.run_intrinsic g c cmd t (Ops.ops_prog g rep types format inject c cmd t))) (fun c d t => ArgApi.shown (ArgApi.call_args g c d t))
      (fun c d => ArgApi.shown (ArgApi.map_params g rep c d)) order shuffle f' tg seeds =
    compile_root g (fun c cmd t => ArgApi.shown (ArgApi.run_intrinsic g c cmd t (Ops.ops_prog g rep types format inject c cmd t))) (fun c d t => ArgApi.shown (ArgApi.call_args g c d t))
      (fun c d => ArgApi.shown (ArgApi.map_params g rep c d)) order shuffle f tg seeds.
Proof. exact HaltTop.top_root_stops. Qed.
Print Assumptions C64_ops.

(** Compiling a part of a program ends as well. *)
Theorem C64_part : forall s e root anon g tg, start s e root anon = Ok (g, tg) -> TyBuildSpec.has_literal_types (df_types s) -> ParamSpec.distinct_params (df_impls s) ->
  OpSpec.plain_tuples g -> forall rep types format inject, (forall t, key_of (rep t) = t) -> forall order shuffle seeds, (forall m, Permutation (order m) m) ->
  forall c brk, fresh Ops.code ArgApi.binding ArgApi.cparam g order tg seeds = Good c -> exists f, forall f', f <= f' ->
    compile g (fun c cmd t => ArgApi.shown (ArgApi.run_intrinsic g c cmd t (Ops.ops_prog g rep types format inject c cmd t))) (fun c d t => ArgApi.shown (ArgApi.call_args g c d t))
      (fun c d => ArgApi.shown (ArgApi.map_params g rep c d)) order shuffle f' c brk <> NoFuel /\
    compile g (fun c cmd t => ArgApi.shown (ArgApi.run_intrinsic g c cmd t (Ops.ops_prog g rep types format inject c cmd t))) (fun c d t => ArgApi.shown (ArgApi.call_args g c d t))
      (fun c d => ArgApi.shown (ArgApi.map_params g rep c d)) order shuffle f' c brk =
    compile g (fun c cmd t => ArgApi.shown (ArgApi.run_intrinsic g c cmd t (Ops.ops_prog g rep types format inject c cmd t))) (fun c d t => ArgApi.shown (ArgApi.call_args g c d t))
      (fun c d => ArgApi.shown (ArgApi.map_params g rep c d)) order shuffle f c brk.
Proof. exact HaltTop.top_stops. Qed.
Print Assumptions C64_part.

(** ** Examples *)
Definition all_told (p : TyGraph.slot) : bool := true.
Lemma builtin_modest : forall g, modest_intrinsics [] all_told (builtin g).
Proof.
  intros g c cmd t r E _. injection E as <-. destruct (node g cmd) as [[|l [n|d n]| | | | | | |]|]; try solve [constructor].
  destruct n as [|[|[|[|[|[|[|n]]]]]]]; try solve [constructor].
  - destruct (cmd_parent g cmd); [destruct (out_ty g c _); constructor|constructor|constructor].
  - destruct (tkey_eqb t KNum); constructor.
  - destruct (get_args g cmd) as [l0|er|]; [|constructor|constructor]. destruct (forallb _ _); [constructor|].
    cbn [r_asks]. apply Forall_forall. intros a J. apply in_map_iff in J. destruct J as (e & <- & _). left. reflexivity.
Qed.
(** The intrinsics of C63's examples are modest, and so all of their programs compile or fail. *)
Example C64_example : forall e g tg, start table e KNil [] = Ok (g, tg) ->
  exists f, forall f', f <= f' -> compile_root g (builtin g) no_args no_params (fun m => m) (fun l => l) f' tg [] <> NoFuel.
Proof.
  intros e g tg _. destruct (C64_root nat nat nat g [] all_told (builtin g) no_args no_params (fun m => m) (fun l => l) (builtin_modest g)) with (tg := tg) (seeds := @nil (str * ty)) as (f & F).
  - intros c d t r E (er & H). injection E as <-. discriminate.
  - intros c d r E. injection E as <-. constructor.
  - reflexivity.
  - exists f. intros f' L. apply (F f' L).
Qed.

(** An intrinsic that keeps on telling and obliging its arguments in turn, and fails all the while. *)
Definition nag (g : graph) (c : comp') (cmd : nat) (t : tkey) : option (reply (tkey * nat)) :=
  match node g cmd with
  | Some (NIntrinsic _ (IBuiltin 6)) =>
      match get_args g cmd with
      | Ok l => Some (Reply (inr soft) (flat_map (fun e => [AskInput e KNil; AskObliged e KNil]) l) false false)
      | _ => Some (Reply (inr soft) [] false false)
      end
  | _ => builtin g c cmd t
  end.
Definition nagged : expr := ex [blk "all" [sub [blk "in" []]]].
Notation plain_order := (fun m : Locals.lmap => m).
Notation plain_nodes := (fun l : list nat => l).
Lemma not_there : forall g c c' brk, has brk (c_exprs c) || has brk (c_ops c) = false ->
  (forall rec, round g (nag g) no_args no_params plain_order plain_nodes rec c = Good c') ->
  (forall f, compile g (nag g) no_args no_params plain_order plain_nodes f c' brk = NoFuel) ->
  forall f, compile g (nag g) no_args no_params plain_order plain_nodes f c brk = NoFuel.
Proof. intros g c c' brk D R L [|f]; [reflexivity|]. cbn [compile]. rewrite D, R. apply L. Qed.
Lemma never_there : forall g c brk, has brk (c_exprs c) || has brk (c_ops c) = false ->
  (forall rec, round g (nag g) no_args no_params plain_order plain_nodes rec c = Good c) ->
  forall f, compile g (nag g) no_args no_params plain_order plain_nodes f c brk = NoFuel.
Proof. intros g c brk D R f. induction f as [|f IH]; [reflexivity|]. cbn [compile]. rewrite D, R. exact IH. Qed.
(** The condition is needed: there is an intrinsic that is not modest, for which the loop never ends. Each round ends with the state it
    began with, but reports a change: the input of the argument is known, then it is obliged. *)
Theorem C64_modest_needed : exists e g tg, start table e KNil [] = Ok (g, tg) /\
  forall f, compile_root g (nag g) no_args no_params plain_order plain_nodes f tg [] = NoFuel.
Proof.
  exists nagged. destruct (start table nagged KNil []) as [[g tg]|er|] eqn:E; vm_compute in E; [|discriminate|discriminate].
  exists g, tg. split; [reflexivity|]. injection E as <- <-. intros f. unfold compile_root.
  match goal with |- (let! c := ?x in _) = _ => let y := eval vm_compute in x in change x with y end. cbn [obind].
  match goal with |- obind (compile ?g _ _ _ _ _ f ?c 0) _ = _ =>
    assert (L : forall f, compile g (nag g) no_args no_params plain_order plain_nodes f c 0 = NoFuel) end.
  { clear f. do 5 (eapply not_there; [reflexivity|intros rec; vm_compute; reflexivity|]).
    apply never_there; [reflexivity|intros rec; vm_compute; reflexivity]. }
  rewrite L. reflexivity.
Qed.
Print Assumptions C64_modest_needed.

(** [let 1 $x | Tuple $x 2] keeps to the conditions, with the intrinsics of ogma: it ends, and compiles. *)
Notation tupled := (ex [blk "let" [num 1; var "x"]; blk "Tuple" [var "x"; num 2]]).
Example C64_program : exists g tg, start (Defs (OpsSamples.some_of ["let"; "Tuple"]%string) OpsSamples.few) tupled KNil [] = Ok (g, tg) /\
  TyBuildSpec.has_literal_types OpsSamples.few /\ ParamSpec.distinct_params (OpsSamples.some_of ["let"; "Tuple"]%string) /\ OpSpec.plain_tuples g /\
  (exists o k cmd op f, In (k, cmd) (AstGraphSpec.keyed g o) /\ node g cmd = Some (NIntrinsic op f) /\ Ops.op_of f = Some Ops.OTuple) /\
  (forall t, key_of (OpsSamples.rep t) = t) /\ exists t st, OpsSamples.run ["let"; "Tuple"]%string tupled = Some (Good (Some t, st)).
Proof.
  destruct (start (Defs (OpsSamples.some_of ["let"; "Tuple"]%string) OpsSamples.few) tupled KNil []) as [[g tg]|er|] eqn:E; vm_compute in E; [|discriminate|discriminate].
  exists g, tg. split; [reflexivity|]. injection E as <- <-. split; [|split; [|split; [|split; [|split]]]].
  - intros t [<-|[<-|[<-|[<-|[]]]]]; [exists (lit "Nil")|exists (lit "Bool")|exists (lit "Num")|exists (lit "Str")]; vm_compute; reflexivity.
  - intros x k t d I R. vm_compute in I. repeat (destruct I as [I|I]; [injection I as <- <-; cbn in R; repeat (destruct R as [R|R]; [discriminate|]); destruct R|]). destruct I.
  - intros o k cmd op f K _ _. do 7 (destruct o as [|o]; [vm_compute; first [reflexivity|vm_compute in K; tauto]|]).
    exfalso. vm_compute in K. destruct o; exact K.
  - exists 4. vm_compute. do 4 eexists. split; [left; reflexivity|]. split; reflexivity.
  - intros [| | | | | |n]; try reflexivity. unfold OpsSamples.rep. destruct (str_eqb_spec n (lit "Ord")) as [->|N]; reflexivity.
  - do 2 eexists. vm_compute. reflexivity.
Qed.
