(** What a compiled expression is. *)
From Coq Require Import String List NArith Bool Arith.
From Verif Require Import Model.Base Model.Value Model.Ast Model.Registry Model.AstGraph Model.TyBuild Model.Compile Spec.AstGraphSpec.
From Verif Require Model.TyGraph Spec.TyGraphSpec.
Import ListNotations.
Set Implicit Arguments.

(** The implementation of an op for an input type: the one for that type, or else the one for any type. *)
Definition chosen (g : graph) (op : nat) (t : tkey) (cmd : nat) : Prop :=
  (exists k, In (Some k, cmd) (keyed g op) /\ key_of k = t) \/
  (In (None, cmd) (keyed g op) /\ forall k c, In (Some k, c) (keyed g op) -> key_of k <> t).

Section Runs.
Variables (P A : Type) (g : graph).
(** What the code of a block has to do with its implementation, its input and output types; what arguments a call may
    be given. *)
Variable answers : nat -> tkey -> tkey -> P -> Prop.
Variable binds : nat -> tkey -> list A -> Prop.

(** [runs os t u ss]: given a value of type [t], the steps [ss] are the blocks [os] one after the other, each for the type the
    one before it returns, and the last returns [u].  A call runs the steps of the body, for the type the call is
    given. *)
Inductive runs : list nat -> tkey -> tkey -> list (cstep P A) -> Prop :=
| runs_end : forall t, runs [] t t []
| runs_block : forall o os t u v s ss, step_of o t u s -> runs os u v ss -> runs (o :: os) t v (s :: ss)
with step_of : nat -> tkey -> tkey -> cstep P A -> Prop :=
| step_intrinsic : forall o t u cmd op f x,
    chosen g o t cmd -> node g cmd = Some (NIntrinsic op f) -> answers cmd t u x -> step_of o t u (Prim A u x)
| step_call : forall o t u d e ps body args ss,
    chosen g o t d -> node g d = Some (NDef e ps) -> children g d = [body] -> binds d t args ->
    runs (children g body) t u ss -> step_of o t u (Call u args ss).
End Runs.

Section Grows.
Variables (P A Q : Type).
Notation comp := (comp P A Q).

(** The compiler has settled on a type. *)
Definition settles (c : comp) (n : nat) (s : TyGraph.side) (t : tkey) : Prop := TyGraphSpec.settled (fst (c_tg c)) (n, s) t.
Definition has_step (c : comp) (o : nat) (s : cstep P A) : Prop := alookup Nat.eqb o (c_ops c) = Some s.
Definition has_stack (c : comp) (e : nat) (ss : list (cstep P A)) : Prop := alookup Nat.eqb e (c_exprs c) = Some ss.

(** Everything settled and everything compiled in [c] is so in [c'], the same. *)
Definition grows (c c' : comp) : Prop :=
  (forall n s t, settles c n s t -> settles c' n s t) /\
  (forall o s, has_step c o s -> has_step c' o s) /\
  (forall e ss, has_stack c e ss -> has_stack c' e ss).

(** Wherever a single type is left, that is settled. *)
Definition at_ease (c : comp) : Prop := forall n s t, kn c n s <> Some (TyGraph.Inferred [t]).
(** The intrinsic gave this code for the block, and this output type, when the compiler was in a state that has grown into
    [c] since. *)
Definition answered (intr : comp -> nat -> tkey -> option (reply (tkey * P))) (c : comp) (cmd : nat) (t u : tkey) (x : P) : Prop :=
  exists c0 r, grows c0 c /\ at_ease c0 /\ intr c0 cmd t = Some r /\ r_res r = inl (u, x).
(** The parameters of definitions are those that were found in such a state. *)
Definition mapped (map_params : comp -> nat -> option ((injection Q + cerr) * list ask)) (c : comp) : Prop :=
  forall d ps, alookup Nat.eqb d (c_params c) = Some ps ->
    exists c0 asks, grows c0 c /\ at_ease c0 /\ map_params c0 d = Some (inl (Success ps), asks).
Definition supplied (call_args : comp -> nat -> tkey -> option ((list A + cerr) * list ask))
  (map_params : comp -> nat -> option ((injection Q + cerr) * list ask)) (c : comp) (d : nat) (t : tkey) (args : list A) : Prop :=
  exists c0 asks, grows c0 c /\ at_ease c0 /\ mapped map_params c0 /\ call_args c0 d t = Some (inl args, asks).
End Grows.
