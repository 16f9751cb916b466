(** C23: a pipeline is the composition of its blocks. *)
From Coq Require Import String List ZArith NArith Bool.
From Verif Require Import Model.Base Model.Value Model.Exec Model.Link Spec.ExecSpec Spec.NamedSpec
  Proofs.ScopedProofs Proofs.ExecProofs.
Import ListNotations.

(** A pipeline gives a value exactly when its blocks, each run on what the one before left, give it. *)
Theorem C23_value (W : Type) (l : list (step W)) (a b : state W) : evals l a b <-> runs l a b.
Proof. exact (evals_iff l a b). Qed.
Print Assumptions C23_value.

(** It stops exactly when some block stops after those before it have run; what comes after is not run. *)
Theorem C23_first_failure (W : Type) (l : list (step W)) (a : state W) (w : W) (f : option nat) :
  eval_stops l a w f <-> exists l1 s l2 b, l = l1 ++ s :: l2 /\ runs l1 a b /\ stops s b w f.
Proof. exact (eval_stops_iff l a w f). Qed.
Print Assumptions C23_first_failure.

(** Splitting anywhere: the same world, value and variables. *)
Theorem C23_split (W : Type) (l1 l2 : list (step W)) (a c : state W) :
  evals (l1 ++ l2) a c <-> exists b, evals l1 a b /\ evals l2 b c.
Proof. exact (evals_split l1 l2 a c). Qed.
Print Assumptions C23_split.

(** The compiled code of a pipeline is the compiled code of the halves; the second half is compiled in the scope the first
    one leaves. *)
Theorem C23_compile_split (W : Type) (bs1 bs2 : list (blk W)) (g : cscope W) (code : list (step W)) :
  link g (bs1 ++ bs2) = Ok code ->
  exists c1 g1 c2, link g bs1 = Ok c1 /\ link g1 bs2 = Ok c2 /\ code = c1 ++ c2.
Proof. exact (link_app bs1 bs2 g (code := code)). Qed.
Print Assumptions C23_compile_split.

(** If the second half is a program of its own: run the first, then the second on its value, each with variables of its
    own. *)
Theorem C23_programs (W : Type) (bs1 bs2 : list (blk W)) (c1 c2 c : list (step W)) (n : nat) (v : value) (w : W) :
  link (@empty W) bs1 = Ok c1 -> link (@empty W) bs2 = Ok c2 -> link (@empty W) (bs1 ++ bs2) = Ok c ->
  NoDup (slots (bs1 ++ bs2)) -> (forall s, In s (slots (bs1 ++ bs2)) -> s < n) ->
  bind (eval c v (env_new n)) (fun p => ret (fst p)) w =
  bind (eval c1 v (env_new n)) (fun p => bind (eval c2 (fst p) (env_new n)) (fun q => ret (fst q))) w.
Proof. exact (fun L1 L2 L N B => program_pipe bs1 bs2 v w L1 L2 L N B). Qed.
Print Assumptions C23_programs.

(** *** Examples: the world is the list of blocks that have run *)
Definition mark (k : nat) : step (list nat) :=
  Op [] [] (fun v => Ask (fun w => (w ++ [k], VNil)) (fun _ => Done v)).
Definition stop (k : nat) : step (list nat) :=
  Op [] [] (fun _ => Ask (fun w => (w ++ [k], VNil)) (fun _ => Fail 7)).
Definition keep (k : nat) : step (list nat) := Op [] [Some k] (fun v => SetVar 0 v (Done (VBool true))).

Example C23_example_value :
  evals [mark 1; keep 0; mark 2] (At [] (VBool false) [VNil]) (At [1; 2] (VBool true) [VBool false])
  /\ runs [mark 1; keep 0; mark 2] (At [] (VBool false) [VNil]) (At [1; 2] (VBool true) [VBool false]).
Proof. rewrite <- C23_value. split; reflexivity. Qed.
Example C23_example_failure :
  eval_stops [mark 1; stop 2; mark 3] (At [] VNil []) [1; 2] (Some 7)
  /\ runs [mark 1] (At [] VNil []) (At [1] VNil []) /\ stops (stop 2) (At [1] VNil []) [1; 2] (Some 7).
Proof. split; [reflexivity|]. split; [apply C23_value; reflexivity|reflexivity]. Qed.

Definition set_x (s : nat) : blk (list nat) :=
  BOp [BVar (lit "x") (Some s) Next] [] (fun v => SetVar 0 v (Done v)).
Definition get_x : blk (list nat) := BOp [] [AVar (lit "x")] (fun v => Resolve 0 v (fun u => Done u)).
Definition flip : blk (list nat) :=
  BOp [] [] (fun v => match v with VBool b => Ask (fun w => (w ++ [9], VNil)) (fun _ => Done (VBool (negb b))) | _ => Fail 1 end).
Example C23_example_programs :
  let bs1 := [set_x 0; flip; get_x] in let bs2 := [flip; set_x 1; get_x] in
  exists c1 c2 c, link (@empty (list nat)) bs1 = Ok c1 /\ link (@empty (list nat)) bs2 = Ok c2 /\
    link (@empty (list nat)) (bs1 ++ bs2) = Ok c /\ slots (bs1 ++ bs2) = [0; 1] /\
    eval c (VBool true) (env_new 2) [] = ([9; 9], Ok (VBool false, [VBool true; VBool false])).
Proof. cbn. eexists. eexists. eexists. repeat split. Qed.
