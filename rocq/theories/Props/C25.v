(** C25: calling a user defined op. *)
From Coq Require Import String List ZArith NArith Bool.
From Verif Require Import Model.Base Model.Value Model.Exec Model.Link Spec.ExecSpec Spec.NamedSpec
  Proofs.ScopedProofs Proofs.ExecProofs.
Import ListNotations.

(** A compiled program does what its blocks mean by names: the same effects, the same value, error or panic.  In the
    meaning a call runs the body with the parameters as its only names (see [C25_call]); in the compiled code the
    body runs in the environment of the caller, with slots. *)
Theorem C25_program (W : Type) (bs : list (blk W)) (code : list (step W)) (n : nat) (v : value) (w : W) :
  link (@empty W) bs = Ok code -> NoDup (slots bs) -> (forall s, In s (slots bs) -> s < n) ->
  match means bs (@nothing W) v w with
  | (w', Ok x) => exists e, eval code v (env_new n) w = (w', Ok (x, e))
  | (w', Err k) => eval code v (env_new n) w = (w', Err k)
  | (w', Panic) => eval code v (env_new n) w = (w', Panic)
  end.
Proof. exact (fun L N B => program_outcome bs v w L N B). Qed.
Print Assumptions C25_program.

(** Programs compile exactly when each variable is bound where it is used and calls have the right number of arguments.
    The names of the caller are not bound in a body. *)
Theorem C25_compiles (W : Type) (bs : list (blk W)) :
  scoped (fun _ => false) bs = true <-> exists code, link (@empty W) bs = Ok code.
Proof. exact (scoped_links bs). Qed.
Print Assumptions C25_compiles.

(** A call gives a value when the arguments of plain parameters, once each and in order on the input of the call, give
    values, and the body run on that input with its parameters and nothing else gives the value.  The names after the
    call are those before. *)
Theorem C25_call (W : Type) N ps args body (r r' : nscope W) (v u : value) (w w' : W) :
  scoped_blk N (BCall ps args body) = true -> NoDup (map fst ps) ->
  (blk_means (BCall ps args body) r v w = (w', Ok (u, r')) <->
   r' = r /\ exists l w1, passed v ps (map (fun a => arg_means a r) args) w l w1 /\
                          means body (only l) v w1 = (w', Ok u)).
Proof. exact (@call_value W N ps args body r v w w' u r'). Qed.
Print Assumptions C25_call.

(** A call fails when an argument of a plain parameter does, those before it having been evaluated and neither those
    after it nor the body, or when the body does. *)
Theorem C25_call_stops (W : Type) N ps args body (r : nscope W) (v : value) (w w' : W) (f : option nat) :
  scoped_blk N (BCall ps args body) = true -> NoDup (map fst ps) ->
  (blk_means (BCall ps args body) r v w = (w', halt f) <->
   (exists ps1 x s ps2 as1 a as2 l w1, ps = ps1 ++ (x, Eager s) :: ps2 /\ args = as1 ++ a :: as2 /\
      passed v ps1 (map (fun a => arg_means a r) as1) w l w1 /\ arg_means a r v w1 = (w', halt f)) \/
   (exists l w1, passed v ps (map (fun a => arg_means a r) args) w l w1 /\ means body (only l) v w1 = (w', halt f))).
Proof. exact (@call_stops W N ps args body r v w w' f). Qed.
Print Assumptions C25_call_stops.

(** An argument for an expression parameter the body does not use is not evaluated: any other would do. *)
Theorem C25_lazy_unused (W : Type) x ps1 ps2 (as1 as2 : list (arg W)) a a' body (r : nscope W) (v : value) (w : W) :
  length ps1 = length as1 -> length ps2 = length as2 -> scoped (fun y => negb (str_eqb x y)) body = true ->
  blk_means (BCall (ps1 ++ (x, Lazy) :: ps2) (as1 ++ a :: as2) body) r v w =
  blk_means (BCall (ps1 ++ (x, Lazy) :: ps2) (as1 ++ a' :: as2) body) r v w.
Proof. exact (@lazy_unused W x ps1 ps2 as1 as2 a a' body r v w). Qed.
Print Assumptions C25_lazy_unused.

(** The variables a piece of program does not need have no influence on it. *)
Theorem C25_needed_only (W : Type) (bs : list (blk W)) (N : str -> bool) (r r' : nscope W) (v : value) (w : W) :
  scoped N bs = true -> (forall x, N x = true -> r x = r' x) -> means bs r v w = means bs r' v w.
Proof. exact (needed_only bs N r r' v w). Qed.
Print Assumptions C25_needed_only.

(** *** Example
    [def foo (x e:Expr) { let $x | twice $e $e $x }] called as [foo { mark 1 } { mark 2 }] with a variable [x] of the
    caller about: the plain argument first and once, the other where it is used, on the input given there. *)
Definition w := list (nat * bool).
Definition note (k : nat) : blk w :=
  BOp [] [] (fun v => match v with
                      | VBool b => Ask (fun w => (w ++ [(k, b)], VNil)) (fun _ => Done (VBool (negb b)))
                      | _ => Fail 1 end).
Definition bind_x (s : nat) : blk w := BOp [BVar (lit "x") (Some s) Next] [] (fun v => SetVar 0 v (Done v)).
Definition get (x : str) : blk w := BOp [] [AVar x] (fun v => Resolve 0 v (fun u => Done u)).
Definition foo_body : list (blk w) :=
  [BOp [] [AVar (lit "e"); AVar (lit "e"); AVar (lit "x")]
     (fun v => Resolve 0 v (fun a => Resolve 1 a (fun b => Resolve 2 b (fun c => Done c))))].
Definition prog : list (blk w) :=
  [bind_x 0; note 0;
   BCall [((lit "x"), Eager 1); ((lit "e"), Lazy)] [AExpr [note 1]; AExpr [note 2; bind_x 2; note 3; get (lit "x")]]
     foo_body;
   note 4; get (lit "x")].

Example C25_example_program :
  exists code, link (@empty w) prog = Ok code /\ slots prog = [0; 1; 2] /\
    means prog (@nothing w) (VBool true) [] =
      ([(0, true); (1, false); (2, false); (3, true); (2, true); (3, false); (4, true)], Ok (VBool true)) /\
    exists e, eval code (VBool true) (env_new 3) [] =
      ([(0, true); (1, false); (2, false); (3, true); (2, true); (3, false); (4, true)], Ok (VBool true, e)).
Proof. eexists. split; [reflexivity|]. split; [reflexivity|]. split; [reflexivity|]. eexists. reflexivity. Qed.
Example C25_example_scoped :
  scoped (fun _ => false) prog = true /\
  scoped (fun _ => false) [bind_x 0; BCall [] [] [get (lit "x")]] = false /\
  scoped (fun _ => false) [BCall [((lit "x"), Lazy)] [] [get (lit "x")]] = false /\
  scoped (fun y => negb (str_eqb (lit "e") y)) [get (lit "x")] = true.
Proof. repeat split. Qed.
Example C25_example_stops :
  blk_means (BCall [((lit "x"), Eager 1); ((lit "y"), Eager 2)] [AExpr [note 1]; AExpr [note 1; BOp [] [] (fun _ => Fail 9)]]
     [note 5]) (@nothing w) (VBool true) [] = ([(1, true); (1, true)], Err 9).
Proof. reflexivity. Qed.
