(** C26: a block compiles only if its op consumed each argument and each flag. *)
From Coq Require Import String List Bool Arith NArith Permutation.
From Verif Require Import Model.Base Model.Block Spec.BlockSpec Proofs.BlockProofs.
Import ListNotations.

(** Whatever an op does: it compiles with [r] exactly when it ends with [r] and has left no flag and no argument. *)
Theorem C26_exact : forall A R (o : op A R) fs xs l r,
  compile_intrinsic o fs xs = (Ok r, l) <-> takes o fs xs l r [] [].
Proof. exact exact_intrinsic. Qed.
Print Assumptions C26_exact.

(** So it took each argument once, in written order, and each flag once. *)
Theorem C26_consumed : forall A R (o : op A R) fs xs l r, compile_intrinsic o fs xs = (Ok r, l) ->
  args_of l = xs /\ Permutation (flags_of l) fs.
Proof. exact consumed. Qed.
Print Assumptions C26_consumed.

(** Anything left over is an error, flags first. *)
Theorem C26_leftover : forall A R (o : op A R) fs xs l r fs' xs', takes o fs xs l r fs' xs' -> fs' <> [] \/ xs' <> [] ->
  fst (compile_intrinsic o fs xs) = Err (match fs' with [] => 3 | _ => 2 end).
Proof. exact leftover. Qed.
Print Assumptions C26_leftover.

(** Asking for more arguments than were supplied is an error. *)
Theorem C26_too_few : forall A R n (k : list A -> op A R) fs xs, length xs < n -> fst (compile_intrinsic (ask n k) fs xs) = Err 1.
Proof. exact too_few. Qed.
Print Assumptions C26_too_few.

(** A call of a definition whose parameters are bound has as many arguments as parameters and no flag, and evaluates the
    arguments of its call parameters. *)
Theorem C26_def : forall A params fs (xs : list A) passes l, def_passes params fs xs passes None = Ok l ->
  (forall st, In (st, true) passes -> exists out, map_def_params st params fs xs = Ok (Success out) \/ exists e, map_def_params st params fs xs = Err e) ->
  fs = [] /\ length xs = length params /\ l = call_args params xs.
Proof. exact def_call. Qed.
Print Assumptions C26_def.

(** Without that assumption: the only other way to compile is with the parameters unbound, and then no argument is
    evaluated; the count is unchecked only if the type of an argument was still unknown. *)
Theorem C26_def_cases : forall A params fs (xs : list A) passes l, def_passes params fs xs passes None = Ok l ->
  (fs = [] /\ length xs = length params /\ l = call_args params xs) \/
  (fs = [] /\ l = [] /\ exists st, In (st, true) passes /\
     (map_def_params st params fs xs = Ok UnknownReturnTy \/
      map_def_params st params fs xs = Ok LgChange /\ length xs = length params)).
Proof. exact passes_cases. Qed.
Print Assumptions C26_def_cases.

Theorem C26_def_flags : forall A params f fs (xs : list A) passes l, def_passes params (f :: fs) xs passes None <> Ok l.
Proof. exact def_flags. Qed.
Print Assumptions C26_def_flags.

(** An op like `sort-by` or `grp`: an optional flag, then all arguments. *)
Fixpoint rest A R (n : nat) (acc : list A) (k : list A -> op A R) : op A R :=
  match n with 0 => k acc | S n => ONext (fun a => rest A R n (acc ++ [a]) k) end.
Definition with_cols : op nat (bool * list nat) :=
  OFlag (Some (lit "cols")) (fun f => OLen (fun n => rest nat _ n [] (fun l => OEval _ (match f with Some _ => true | None => false end, l)))).
(** An op of exactly two arguments and no flag. *)
Definition two : op nat (nat * nat) := ONext (fun a => ONext (fun b => OEval _ (a, b))).

Example C26_example :
  compile_intrinsic with_cols [lit "cols"] [7; 8; 9] = (Ok (true, [7; 8; 9]), [GFlag (lit "cols"); GArg 7; GArg 8; GArg 9]) /\
  fst (compile_intrinsic with_cols [lit "cols"; lit "cols"] [7]) = Err 2 /\
  compile_intrinsic two [] [1; 2] = (Ok (1, 2), [GArg 1; GArg 2]) /\ fst (compile_intrinsic two [] [1; 2; 3]) = Err 3 /\
  fst (compile_intrinsic two [] [1]) = Err 1 /\ fst (compile_intrinsic two [lit "a"] [1; 2; 3]) = Err 2 /\
  fst (compile_intrinsic two [lit "a"] [1]) = Err 1 /\
  takes two [] [1; 2; 3] [GArg 1; GArg 2] (1, 2) [] [3] /\
  def_passes [PCall; PLazy; PCall] [] [1; 2; 3] [((fun n => if n =? 2 then PWait else PBound), false); ((fun _ => PBound), false); ((fun _ => PBound), true)] None = Ok [1; 3] /\
  def_passes [PCall] [] [1; 2] [((fun _ => PBound), true)] None = Err 3.
Proof. vm_compute. repeat split; repeat constructor. Qed.

(** Finding: `def foo (x) { \ 3 }`, called as `foo {+ 1 | + 1 | + 1 | + 1} 9`: the body compiles while the type of the
    first argument is still unknown, so the surplus argument is never noticed and the first one is never evaluated. *)
Theorem C26_def_ignored_refuted : exists (params : list pkind) (args : list nat) passes,
  length params < length args /\ def_passes params [] args passes None = Ok [].
Proof. exists [PCall], [1; 9], [((fun _ => PUnknown), false); ((fun _ => PUnknown), true)]. split; [cbn; auto|reflexivity]. Qed.
Print Assumptions C26_def_ignored_refuted.
