(** What logical and variadic ops do, in terms of their arguments as computations. *)
From Coq Require Import List Arith Bool.
From Verif Require Import Model.Base Model.Value Model.Exec Model.Intrinsics Spec.ExecSpec.
Import ListNotations.
Set Implicit Arguments.

Section Logic.
Variable W : Type.

(** an argument, seen as a computation on an input, in some environment *)
Definition compu : Type := value -> W -> W * res value.
Definition in_env (e : env) (h : hold W) : compu := fun v w => resolve h v e w.

(** The computations are run on [v], in order and once each, and give these values. *)
Inductive each (v : value) : list compu -> W -> list value -> W -> Prop :=
| each_none w : each v [] w [] w
| each_next d ds w u w1 us w2 : d v w = (w1, Ok u) -> each v ds w1 us w2 -> each v (d :: ds) w (u :: us) w2.

(** The chain of an [if]: predicates are run in order up to the first that holds; [b] is the branch to run. *)
Inductive picks (v : value) : list (compu * compu) -> compu -> W -> compu -> W -> Prop :=
| picks_else e w : picks v [] e w e w
| picks_this p b l e w w1 : p v w = (w1, Ok (VBool true)) -> picks v ((p, b) :: l) e w b w1
| picks_later p b l e w w1 b' w2 :
    p v w = (w1, Ok (VBool false)) -> picks v l e w1 b' w2 -> picks v ((p, b) :: l) e w b' w2.
(** ... or a predicate stops it (an error, a panic), or gives something that is not a truth value *)
Inductive blocked (v : value) : list (compu * compu) -> W -> option nat -> W -> Prop :=
| blocked_here p b l w f w1 : p v w = (w1, halt f) -> blocked v ((p, b) :: l) w f w1
| blocked_type p b l w x w1 : p v w = (w1, Ok x) -> ty_of x <> TBool -> blocked v ((p, b) :: l) w (Some 1) w1
| blocked_later p b l w w1 f w2 : p v w = (w1, Ok (VBool false)) -> blocked v l w1 f w2 -> blocked v ((p, b) :: l) w f w2.

(** An argument that is accepted where [in_ty] is given and [t] is expected. *)
Definition accepted (in_ty t : ty) (n : node W) (h : hold W) : Prop :=
  ty_eqb (n_in n) in_ty = true /\ ty_eqb (n_out n) t = true /\
  exists t', n_hold n = Ok (h, t') /\ ty_eqb t' (n_out n) = true.
(** ... whatever it gives *)
Definition accepted_any (in_ty : ty) (n : node W) (h : hold W) : Prop := accepted in_ty (n_out n) n h.

(** what an argument computes in an environment *)
Definition arg_of (e : env) (n : node W) : compu :=
  match n_hold n with Ok (h, _) => in_env e h | _ => fun _ w => (w, Panic) end.

(** Truth values of arguments that have been run leave it open what comes out: with one alone, nothing is decided. *)
Definition open_and (bs : list bool) : Prop := 2 <= length bs -> forallb (fun b => b) bs = true.
Definition open_or (bs : list bool) : Prop := 2 <= length bs -> existsb (fun b => b) bs = false.

(** [bs] are the truth values of the arguments run; [rest] are left.  Each argument but the first two was run because those
    before it left it open. *)
Definition ends_with (is_open : list bool -> Prop) (bs : list bool) (rest : list (node W)) : Prop :=
  bs <> [] /\ (rest = [] \/ ~ is_open bs) /\ forall k, k < length bs -> is_open (firstn k bs).

(** predicates with their branches, and what comes last *)
Definition chain (conds : list (node W * node W)) (last : node W) : list (node W) :=
  flat_map (fun c => [fst c; snd c]) conds ++ [last].
Definition chain_of (e : env) (conds : list (node W * node W)) : list (compu * compu) :=
  map (fun c => (arg_of e (fst c), arg_of e (snd c))) conds.

End Logic.
