(** Compiled code and its evaluation: environments, arguments, steps, stacks. *)
From Coq Require Import String List ZArith NArith Bool Lia.
From Verif Require Import Model.Base Model.Value.
Import ListNotations.
Set Implicit Arguments.

(** eng/var.rs:23-24 [Environment]: the values of the variables of one compilation.  Sharing
    between clones is modelled in [Model.EnvHeap]; here an environment is its contents. *)
Definition env := list value.

(** eng/var.rs:27-29 [Environment::new] *)
Definition env_new (var_count : nat) : env := repeat VNil var_count.

(** eng/var.rs:68-88 [Variable::fetch]; a missing location is the [expect] at 77.  The type check
    of debug builds is left out. *)
Definition fetch (idx : nat) (e : env) : res value :=
  match nth_error e idx with Some v => Ok v | None => Panic end.

Fixpoint put (idx : nat) (v : value) (e : env) : option env :=
  match e, idx with
  | [], _ => None
  | _ :: e, 0 => Some (v :: e)
  | x :: e, S i => match put i v e with Some e => Some (x :: e) | None => None end
  end.

(** eng/var.rs:91-107 [Variable::set_data], 118-124 [Variable::noop], 126-128: a variable is
    its index, [None] for a no-op one. *)
Definition set_data (var : option nat) (v : value) (e : env) : res env :=
  match var with
  | None => Ok e
  | Some i => match put i v e with Some e => Ok e | None => Panic end
  end.

Section World.
(** Everything outside the interpreter that running code may read or alter (files, terminal,
    randomness).  Threading it through makes the order and the number of evaluations
    observable. *)
Variable W : Type.

Definition M (A : Type) : Type := W -> W * res A.
Definition ret {A} (a : A) : M A := fun w => (w, Ok a).
Definition fail {A} (e : nat) : M A := fun w => (w, Err e).
Definition crash {A} : M A := fun w => (w, Panic).
Definition lift {A} (r : res A) : M A := fun w => (w, r).
Definition bind {A B} (m : M A) (k : A -> M B) : M B := fun w =>
  match m w with
  | (w, Ok a) => k a w
  | (w, Err e) => (w, Err e)
  | (w, Panic) => (w, Panic)
  end.

(** What the closure of an intrinsic does (the [move |input, cx| ...] blocks under
    lang/impls/intrinsics): finish, fail, panic, resolve its [i]-th argument on some input,
    store into its [i]-th variable, or touch the outside world. *)
Inductive act : Type :=
| Done (v : value)
| Fail (e : nat)
| Crash
| Resolve (i : nat) (input : value) (k : value -> act)
| SetVar (i : nat) (v : value) (k : act)
| Ask (f : W -> W * value) (k : value -> act).

(** [x.try_into()?] and the like inside a closure *)
Definition try {A} (r : res A) (k : A -> act) : act :=
  match r with Ok a => k a | Err e => Fail e | Panic => Crash end.

(** eng/mod.rs [Step], eng/arg.rs:308-330 [Hold].
    - [Op args vars f]: an intrinsic with its concrete arguments and the variables it writes;
    - [Def params body]: a call to a user definition (step.rs:8-23);
    - [Inject args env body]: generated code run in its own environment (eval.rs:115-130,
      195-250); every mapped argument has its variable and optionally a fixed input. *)
Inductive step : Type :=
| Op (args : list hold) (vars : list (option nat)) (f : value -> act)
| Def (params : list (option nat * hold)) (body : list step)
| Inject (args : list (hold * option nat * option value)) (local : env) (body : list step)
with hold : Type :=
| HLit (v : value)
| HVar (idx : nat)
| HExpr (stack : list step).

(** Running the closure of an intrinsic: [args] are its argument resolvers, which never change
    the environment of the step because they work on a clone (arg.rs:395-398). *)
Fixpoint run_act (args : list (value -> env -> M value)) (vars : list (option nat)) (a : act)
  (e : env) {struct a} : M (value * env) :=
  match a with
  | Done v => ret (v, e)
  | Fail n => fail n
  | Crash => crash
  | Resolve i input k =>
      match nth_error args i with
      | Some r => bind (r input e) (fun v => run_act args vars (k v) e)
      | None => crash
      end
  | SetVar i v k =>
      match nth_error vars i with
      | Some x => bind (lift (set_data x v e)) (fun e => run_act args vars k e)
      | None => crash
      end
  | Ask f k => fun w => let (w, v) := f w in run_act args vars (k v) e w
  end.

(** eng/step.rs:11-16 and eng/eval.rs:233-237: resolve each argument on [input] in the
    environment [outer e] and store it. *)
Fixpoint bind_params (outer : env -> env) (ps : list (option nat * (value -> env -> M value)))
  (input : value) (e : env) : M env :=
  match ps with
  | [] => ret e
  | (x, r) :: ps =>
      bind (r input (outer e)) (fun v =>
      bind (lift (set_data x v e)) (fun e => bind_params outer ps input e))
  end.

(** eng/step.rs:26-45 [Step::invoke] (debug assertion left out); eng/arg.rs:387-409
    [Argument::resolve]. *)
Fixpoint invoke (s : step) (input : value) (e : env) {struct s} : M (value * env) :=
  match s with
  | Op args vars f => run_act (map resolve args) vars (f input) e
  | Def params body =>
      bind (bind_params (fun e => e) (map (fun p => (fst p, resolve (snd p))) params) input e)
        (fun e =>
      (fix eval (steps : list step) (v : value) (e : env) : M (value * env) :=
         match steps with
         | [] => ret (v, e)
         | s :: steps => bind (invoke s v e) (fun p => eval steps (fst p) (snd p))
         end) body input e)
  | Inject args local body =>
      bind (bind_params (fun _ => e)
              (map (fun p => let '(h, x, fixed) := p in
                 (x, fun i e => resolve h (match fixed with Some v => v | None => i end) e)) args)
              input local)
        (fun local =>
      bind
      ((fix eval (steps : list step) (v : value) (e : env) : M (value * env) :=
         match steps with
         | [] => ret (v, e)
         | s :: steps => bind (invoke s v e) (fun p => eval steps (fst p) (snd p))
         end) body input local)
        (fun p => ret (fst p, e)))
  end
with resolve (h : hold) (input : value) (e : env) {struct h} : M value :=
  match h with
  | HLit v => ret v
  | HVar i => lift (fetch i e)
  | HExpr stack =>
      bind
      ((fix eval (steps : list step) (v : value) (e : env) : M (value * env) :=
         match steps with
         | [] => ret (v, e)
         | s :: steps => bind (invoke s v e) (fun p => eval steps (fst p) (snd p))
         end) stack input e)
        (fun p => ret (fst p))
  end.

(** eng/eval.rs:50-86 [Stack::eval] *)
Fixpoint eval (steps : list step) (v : value) (e : env) : M (value * env) :=
  match steps with
  | [] => ret (v, e)
  | s :: steps => bind (invoke s v e) (fun p => eval steps (fst p) (snd p))
  end.

End World.

Arguments Done {W} v.
Arguments Fail {W} e.
Arguments Crash {W}.
Arguments HLit {W} v.
Arguments HVar {W} idx.
Arguments ret {W A} a.
Arguments fail {W A} e.
Arguments crash {W A}.
Arguments lift {W A} r.
