(** C22: [if]. *)
From Coq Require Import String List ZArith NArith Bool Arith.
From Verif Require Import Model.Base Model.Value Model.Exec Model.Intrinsics Spec.ExecSpec Spec.LogicSpec Proofs.LogicProofs.
Import ListNotations.
Set Implicit Arguments.

(** What compiles: predicates each with a branch, and what comes last; predicates give truth values; all branches give the
    type the last gives, which is the output type. *)
Theorem C22_compiles (W : Type) (in_ty t : ty) (args : list (node W)) :
  (exists s, if_intrinsic in_ty args = Ok (s, t)) <->
  exists conds last, args = chain conds last /\
    (forall p b, In (p, b) conds -> (exists h, accepted in_ty TBool p h) /\ (exists h, accepted_any in_ty b h) /\
                                    ty_eqb t (n_out b) = true) /\
    (exists h, accepted_any in_ty last h) /\ t = n_out last.
Proof. exact (if_compiles in_ty args t). Qed.
Print Assumptions C22_compiles.

(** It gives [u] exactly when the predicates, run in order and once each up to the first that holds, pick a branch that gives
    [u]; no other branch is run. *)
Theorem C22_value (W : Type) (in_ty t : ty) conds (last : node W) (s : step W) v e w w' u e' :
  if_intrinsic in_ty (chain conds last) = Ok (s, t) ->
  (invoke s v e w = (w', Ok (u, e')) <->
   e' = e /\ exists b w1, picks v (chain_of e conds) (arg_of e last) w b w1 /\ b v w1 = (w', Ok u)).
Proof. exact (@if_value W in_ty conds last s t v e w w' u e'). Qed.
Print Assumptions C22_value.

(** It stops exactly when one of these predicates does, or the branch picked does. *)
Theorem C22_stops (W : Type) (in_ty t : ty) conds (last : node W) (s : step W) v e w w' f :
  if_intrinsic in_ty (chain conds last) = Ok (s, t) ->
  (invoke s v e w = (w', halt f) <->
   blocked v (chain_of e conds) w f w' \/
   exists b w1, picks v (chain_of e conds) (arg_of e last) w b w1 /\ b v w1 = (w', halt f)).
Proof. exact (@if_stops W in_ty conds last s t v e w w' f). Qed.
Print Assumptions C22_stops.

(** An even number of arguments is rejected, and so is a branch of another type. *)
Theorem C22_rejects (W : Type) (in_ty t : ty) (args : list (node W)) (s : step W) :
  if_intrinsic in_ty args = Ok (s, t) ->
  Nat.Odd (length args) /\
  forall conds last p b, args = chain conds last -> In (p, b) conds -> ty_eqb (n_out last) (n_out b) = true.
Proof. exact (@if_rejects W in_ty t args s). Qed.
Print Assumptions C22_rejects.

Definition say (k : nat) (t : ty) (x : value) : node (list nat) :=
  Node TNum t (Ok (HExpr [Op [] [] (fun _ => Ask (fun w => (w ++ [k], x)) (fun x => Done x))], t)) None.
Definition yes k := say k TBool (VBool true).
Definition no k := say k TBool (VBool false).
Definition run (r : res (step (list nat) * ty)) : list nat * res (value * env) :=
  match r with Ok (s, _) => invoke s (VNum 0) [] [] | Err n => ([], Err n) | Panic => ([], Panic) end.

Example C22_example_second :
  run (if_intrinsic TNum [no 1; say 2 TNum (VNum 2); yes 3; say 4 TNum (VNum 4); yes 5; say 6 TNum (VNum 6); say 7 TNum (VNum 7)])
  = ([1; 3; 4], Ok (VNum 4, [])).
Proof. vm_compute. reflexivity. Qed.
Example C22_example_else :
  run (if_intrinsic TNum [no 1; say 2 TNum (VNum 2); say 7 TNum (VNum 7)]) = ([1; 7], Ok (VNum 7, [])).
Proof. vm_compute. reflexivity. Qed.
Example C22_example_rejected :
  if_intrinsic TNum [no 1; say 2 TNum (VNum 2)] = Err 1 /\
  if_intrinsic TNum [no 1; say 2 TNum (VNum 2); say 7 TBool (VBool true)] = Err 8 /\
  if_intrinsic TNum [say 1 TNum (VNum 1); say 2 TNum (VNum 2); say 7 TNum (VNum 2)] = Err 6.
Proof. vm_compute. auto. Qed.
