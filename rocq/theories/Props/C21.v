(** C21: [and] and [or]. *)
From Coq Require Import String List ZArith NArith Bool Arith.
From Verif Require Import Model.Base Model.Value Model.Exec Model.Intrinsics Spec.ExecSpec Spec.LogicSpec Proofs.LogicProofs.
Import ListNotations.
Set Implicit Arguments.

(** What compiles: at least one argument, each given the input of the block and giving a truth value. *)
Theorem C21_compiles (W : Type) (in_ty t : ty) (args : list (node W)) :
  ((exists s, and_intrinsic in_ty args = Ok (s, t)) <->
   args <> [] /\ t = TBool /\ forall n, In n args -> exists h, accepted in_ty TBool n h) /\
  ((exists s, or_intrinsic in_ty args = Ok (s, t)) <->
   args <> [] /\ t = TBool /\ forall n, In n args -> exists h, accepted in_ty TBool n h).
Proof. exact (conj (decide_compiles false in_ty args t) (decide_compiles true in_ty args t)). Qed.
Print Assumptions C21_compiles.

(** [and]: a leading part of the arguments is run, in order and once each, on the input; the result is the conjunction of
    what they give; and it is the shortest part of two or more that settles the result, or all of them. *)
Theorem C21_and (W : Type) (in_ty t : ty) (args : list (node W)) (s : step W) v e w w' u e' :
  and_intrinsic in_ty args = Ok (s, t) ->
  (invoke s v e w = (w', Ok (u, e')) <->
   e' = e /\ exists args1 args2 bs, args = args1 ++ args2 /\ each v (map (arg_of e) args1) w (map VBool bs) w' /\
     u = VBool (forallb (fun b => b) bs) /\ ends_with open_and bs args2).
Proof. exact (@decide_value W false in_ty args s t v e w w' u e'). Qed.
Print Assumptions C21_and.

(** [or]: likewise, with the disjunction. *)
Theorem C21_or (W : Type) (in_ty t : ty) (args : list (node W)) (s : step W) v e w w' u e' :
  or_intrinsic in_ty args = Ok (s, t) ->
  (invoke s v e w = (w', Ok (u, e')) <->
   e' = e /\ exists args1 args2 bs, args = args1 ++ args2 /\ each v (map (arg_of e) args1) w (map VBool bs) w' /\
     u = VBool (existsb (fun b => b) bs) /\ ends_with open_or bs args2).
Proof. exact (@decide_value W true in_ty args s t v e w w' u e'). Qed.
Print Assumptions C21_or.

(** They stop exactly when an argument that is run stops, with its error or panic, or gives something that is no truth value. *)
Theorem C21_and_stops (W : Type) (in_ty t : ty) (args : list (node W)) (s : step W) v e w w' f :
  and_intrinsic in_ty args = Ok (s, t) ->
  (invoke s v e w = (w', halt f) <->
   exists args1 n args2 bs w1, args = args1 ++ n :: args2 /\ each v (map (arg_of e) args1) w (map VBool bs) w1 /\
     open_and bs /\
     (arg_of e n v w1 = (w', halt f) \/ exists x, arg_of e n v w1 = (w', Ok x) /\ ty_of x <> TBool /\ f = Some 1)).
Proof. exact (@decide_stops W false in_ty args s t v e w w' f). Qed.
Print Assumptions C21_and_stops.

Theorem C21_or_stops (W : Type) (in_ty t : ty) (args : list (node W)) (s : step W) v e w w' f :
  or_intrinsic in_ty args = Ok (s, t) ->
  (invoke s v e w = (w', halt f) <->
   exists args1 n args2 bs w1, args = args1 ++ n :: args2 /\ each v (map (arg_of e) args1) w (map VBool bs) w1 /\
     open_or bs /\
     (arg_of e n v w1 = (w', halt f) \/ exists x, arg_of e n v w1 = (w', Ok x) /\ ty_of x <> TBool /\ f = Some 1)).
Proof. exact (@decide_stops W true in_ty args s t v e w w' f). Qed.
Print Assumptions C21_or_stops.

(** A world that records which arguments ran. *)
Definition say (k : nat) (b : bool) : node (list nat) :=
  Node TNum TBool (Ok (HExpr [Op [] [] (fun _ => Ask (fun w => (w ++ [k], VBool b)) (fun x => Done x))], TBool)) None.
Definition run (r : res (step (list nat) * ty)) : list nat * res (value * env) :=
  match r with Ok (s, _) => invoke s (VNum 0) [] [] | Err n => ([], Err n) | Panic => ([], Panic) end.

Example C21_example_and : run (and_intrinsic TNum [say 1 true; say 2 true; say 3 false; say 4 true]) = ([1; 2; 3], Ok (VBool false, [])).
Proof. vm_compute. reflexivity. Qed.
Example C21_example_or : run (or_intrinsic TNum [say 1 false; say 2 false; say 3 false]) = ([1; 2; 3], Ok (VBool false, [])).
Proof. vm_compute. reflexivity. Qed.
Example C21_example_stop : run (or_intrinsic TNum [say 1 false; Node TNum TBool (Ok (HExpr [Op [] [] (fun _ => Fail 4)], TBool)) None; say 3 true])
  = ([1], Err 4).
Proof. vm_compute. reflexivity. Qed.

(** It is not so that nothing is run past the first argument that settles the result: when that is the very first, the second
    is run all the same, and its error is the result. *)
Theorem C21_first_refuted :
  (exists (args : list (node (list nat))) a rest, args = a :: rest /\
     arg_of [] a (VNum 0) [] = ([1], Ok (VBool false)) /\
     run (and_intrinsic TNum args) = ([1; 2], Ok (VBool false, []))) /\
  (exists (args : list (node (list nat))) a rest, args = a :: rest /\
     arg_of [] a (VNum 0) [] = ([1], Ok (VBool true)) /\
     run (or_intrinsic TNum args) = ([1], Err 4)).
Proof.
  split.
  - exists [say 1 false; say 2 true; say 3 true], (say 1 false), [say 2 true; say 3 true]. vm_compute. auto.
  - exists [say 1 true; Node TNum TBool (Ok (HExpr [Op [] [] (fun _ => Fail 4)], TBool)) None], (say 1 true),
      [Node TNum TBool (Ok (HExpr [Op [] [] (fun _ => Fail 4)], TBool)) None]. vm_compute. auto.
Qed.
Print Assumptions C21_first_refuted.
