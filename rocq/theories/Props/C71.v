(** C71: intrinsics ask only for what has to be so. *)
From Coq Require Import String List ZArith NArith Bool Arith.
From Verif Require Import Model.Base Model.Value Model.Ast Model.Registry Model.AstGraph Model.TyBuild Model.Compile Model.ArgApi Model.Ops
  Spec.AstGraphSpec Spec.TyBuildSpec Spec.CompileSpec Spec.ArgSpec Spec.OpSpec Spec.AskSpec Proofs.RegistrySamples Proofs.OpsSamples Proofs.AskProofs.
From Verif Require Model.TyGraph Model.Locals.
Import ListNotations.

(** Let an intrinsic be tried in a state [c], whether it compiles there or not, and let it compile in a state [c'] that [c] has grown into.
    Then whatever it asked of the compiler in [c] is so in [c']: the types it said its arguments are given and return are those they are
    given and return, the output it announced is its output, the variables are those of [let] and [$row].  Nothing is asked that would
    keep a program that compiles from compiling, but for [ren], see below. *)
Theorem C71_asks : forall s e root anon g tg, start s e root anon = Ok (g, tg) ->
  forall rep types format inject (c c' : comp code ArgApi.binding cparam) cmd t b key op f o r r' u x,
  node g cmd = Some (NIntrinsic op f) -> op_of f = Some o -> In (key, cmd) (keyed g b) -> at_ease c -> grows c c' ->
  run_intrinsic g c cmd t (ops_prog g rep types format inject c cmd t) = Good r ->
  run_intrinsic g c' cmd t (ops_prog g rep types format inject c' cmd t) = Good r' -> r_res r' = inl (u, x) ->
  Forall (must code g rep c c' b o t (firstn 256 (args_below g b)) u) (r_asks r).
Proof. exact asks_must. Qed.
Print Assumptions C71_asks.

(** In particular a block returns what it said it would, at any time before. *)
Theorem C71_output : forall s e root anon g tg, start s e root anon = Ok (g, tg) ->
  forall rep types format inject (c c' : comp code ArgApi.binding cparam) cmd t b key op f o r r' u x,
  node g cmd = Some (NIntrinsic op f) -> op_of f = Some o -> In (key, cmd) (keyed g b) -> at_ease c -> grows c c' ->
  run_intrinsic g c cmd t (ops_prog g rep types format inject c cmd t) = Good r ->
  run_intrinsic g c' cmd t (ops_prog g rep types format inject c' cmd t) = Good r' -> r_res r' = inl (u, x) ->
  forall n v, In (AskOutput n v) (r_asks r) -> n = b /\ v = u.
Proof. exact output_must. Qed.
Print Assumptions C71_output.

(** ** Examples *)
(** [range 0 9 | take { \ 1 }], when [range] is compiled and nothing else, and in the end.  In between [take] asks for a table to be given
    to its argument, having said that it returns one. *)
Example C71_example : exists g tg c c' r r' x, upto ["range"; "take"; "\"]%string (ex [blk "range" [num 0; num 9]; blk "take" [sub [blk "\" [num 1]]]]) 1 = Some (g, tg, Good c) /\
  upto ["range"; "take"; "\"]%string (ex [blk "range" [num 0; num 9]; blk "take" [sub [blk "\" [num 1]]]]) 0 = Some (g, tg, Good c') /\
  (exists y, node g 10 = Some (NIntrinsic y (IBuiltin 57))) /\ op_of (IBuiltin 57) = Some OTakeTab /\ In (Some TTab, 10) (keyed g 4) /\ at_ease c /\ grows c c' /\
  run_intrinsic g c 10 KTab (ops_prog g rep named (fun _ => true) (fun _ => compares) c 10 KTab) = Good r /\ r_asks r = [AskOutput 4 KTab; AskInput 5 KTab] /\
  run_intrinsic g c' 10 KTab (ops_prog g rep named (fun _ => true) (fun _ => compares) c' 10 KTab) = Good r' /\ r_res r' = inl (KTab, x).
Proof.
  destruct (upto ["range"; "take"; "\"]%string (ex [blk "range" [num 0; num 9]; blk "take" [sub [blk "\" [num 1]]]]) 1) as [[[g tg] [c| | |]]|] eqn:E1; vm_compute in E1; try discriminate.
  destruct (upto ["range"; "take"; "\"]%string (ex [blk "range" [num 0; num 9]; blk "take" [sub [blk "\" [num 1]]]]) 0) as [[[g' tg'] [c'| | |]]|] eqn:E2; vm_compute in E2; try discriminate.
  injection E1 as <- <- <-. injection E2 as <- <- <-. do 7 eexists. split; [reflexivity|]. split; [reflexivity|]. split; [eexists; vm_compute; reflexivity|]. split; [reflexivity|].
  split; [vm_compute; tauto|]. split.
  { intros n s t H. do 12 (destruct n as [|n]; [destruct s; vm_compute in H; discriminate H|]). destruct n, s; vm_compute in H; discriminate H. }
  split.
  { split; [|split].
    - intros n s t [H|H]; do 12 (destruct n as [|n]; [destruct s; vm_compute in H |- *; first [discriminate H|left; exact H|right; exact H]|]); destruct n, s; vm_compute in H; discriminate H.
    - intros n s H. do 2 (destruct n as [|n]; [vm_compute in H |- *; first [discriminate H|exact H]|]). vm_compute in H. discriminate H.
    - intros n s H. vm_compute in H. discriminate H. }
  split; [vm_compute; reflexivity|]. split; [reflexivity|]. split; [vm_compute; reflexivity|]. reflexivity.
Qed.

(** [ren] takes a number for a column, and asks for a string if it does not know yet what there is: a number that is written out will do,
    one that is computed is rejected.  [range 0 9 | ren 1 x] and [range 0 9 | ren { \ a } x] compile, [range 0 9 | ren { \ 1 } x] does not.
    The match in ren_table_intrinsic (morphism.rs:1052-1057) has [returns(Ty::Str)] for everything but a known number, a return type that is
    not known included. *)
Theorem C71_ren_refuted : exists s1 s2 er, run ["range"; "ren"; "\"]%string (ex [blk "range" [num 0; num 9]; blk "ren" [num 1; id "x"]]) = Some (Good (Some KTab, s1)) /\
  run ["range"; "ren"; "\"]%string (ex [blk "range" [num 0; num 9]; blk "ren" [sub [blk "\" [id "a"]]; id "x"]]) = Some (Good (Some KTab, s2)) /\
  run ["range"; "ren"; "\"]%string (ex [blk "range" [num 0; num 9]; blk "ren" [sub [blk "\" [num 1]]; id "x"]]) = Some (Bad er).
Proof. do 3 eexists. split; [vm_compute; reflexivity|]. split; vm_compute; reflexivity. Qed.
