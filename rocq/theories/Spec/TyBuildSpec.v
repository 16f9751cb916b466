(** What the type graph says about an expression before anything is compiled. *)
From Coq Require Import String List NArith Bool Arith.
From Verif Require Import Model.Base Model.Value Model.Ast Model.Registry Model.AstGraph Model.TyBuild Spec.AstGraphSpec.
From Verif Require Import Model.TyGraph Spec.TyGraphSpec.
Import ListNotations.
Set Implicit Arguments.

(** The types ogma always has that a literal may take. *)
Definition has_literal_types (ts : types) : Prop :=
  forall t, In t [TNil; TBool; TNum; TStr] -> exists n, get_type ts n = Some t.

(** [a] is a definition. *)
Definition defines (g : graph) (a : nat) : Prop := exists e ps, AstGraph.node g a = Some (NDef e ps).

(** From which node to which node types flow, and between which sides. *)
Inductive carries (g : graph) : nat -> nat -> flow -> Prop :=
(** the input of an expression is that of its first block *)
| c_first : forall e t o, AstGraph.node g e = Some (NExpr t) -> nth_error (children g e) 0 = Some o -> carries g e o II
(** the output of the last block is that of the expression *)
| c_last : forall e t l o, AstGraph.node g e = Some (NExpr t) -> children g e = l ++ [o] -> carries g o e OO
(** the output of a block is the input of the next *)
| c_pipe : forall e t i a b, AstGraph.node g e = Some (NExpr t) ->
    nth_error (children g e) i = Some a -> nth_error (children g e) (S i) = Some b -> carries g a b OI
(** [#i] stands for the input of its block *)
| c_input : forall n t o f, AstGraph.node g n = Some (NPound PInput t) -> In n (children g o) -> f = II \/ f = IO -> carries g o n f
(** a definition and its expression *)
| c_body_in : forall d x, defines g d -> In x (children g d) -> carries g d x II
| c_body_out : forall d x, defines g d -> In x (children g d) -> carries g x d OO
(** a call of a definition for any type *)
| c_call_in : forall o d, defines g d -> In (None, d) (keyed g o) -> carries g o d II
| c_call_out : forall o d, defines g d -> In (None, d) (keyed g o) -> carries g d o OO
(** a call of the only implementation *)
| c_only : forall o k d, defines g d -> keyed g o = [(k, d)] -> carries g d o OO
(** an argument that every implementation evaluates at the call; only the first 256 arguments arrive (C40) *)
| c_arg : forall o i a, keyed g o <> [] ->
    (forall k c, In (k, c) (keyed g o) -> exists e ps x ty, AstGraph.node g c = Some (NDef e ps) /\ nth_error ps i = Some (x, ty) /\ ty <> PExpr) ->
    i < 256 -> nth_error (args_below g o) i = Some a -> carries g o a II.

(** The type of a literal. *)
Definition literal (x : anode) : option tkey :=
  match x with
  | NIdent _ | NPound PNewline _ => Some KStr
  | NNum _ _ => Some KNum
  | NPound PNil _ => Some KNil
  | NPound (PTrue | PFalse) _ => Some KBool
  | _ => None
  end.

(** [l] lists the types some implementation of the op is for. *)
Definition listed (g : graph) (o : nat) (l : list tkey) : Prop :=
  NoDup l /\ forall k, In k l <-> exists t c, In (Some t, c) (keyed g o) /\ key_of t = k.

(** What is known about the input of node [n] at the start. *)
Definition start_input (g : graph) (all : list tkey) (root : tkey) (n : nat) (x : anode) (k : kn tkey) : Prop :=
  match x with
  | NOp _ => (In None (map fst (keyed g n)) /\ k = Inferred all) \/ (~ In None (map fst (keyed g n)) /\ exists l, k = Inferred l /\ listed g n l)
  | NDef _ _ | NIntrinsic _ _ => exists o key, In (key, n) (keyed g o) /\ k = match key with Some t => Known (key_of t) | None => Inferred all end
  | NExpr _ => k = if n =? 0 then Known root else Inferred all
  | x => k = match literal x with Some _ => Any | None => Inferred all end
  end.
Definition start_output (all : list tkey) (x : anode) (k : kn tkey) : Prop :=
  k = match literal x with Some t => Known t | None => Inferred all end.

Definition at_node (g : graph) (n : nat) (p : anode -> Prop) : Prop := exists x, AstGraph.node g n = Some x /\ p x.
Definition variable (x : anode) : Prop := match x with NVar _ => True | _ => False end.
Definition an_op (x : anode) : Prop := match x with NOp _ => True | _ => False end.

(** What the compiler does to the type graph after it is built (comp/mod.rs:129-177): edges are added to variables
    (comp/mod.rs:289-298) and from ops (327), only variables are said to take anything (285). *)
Definition compiler_chg (g : graph) (c : chg tkey) : Prop :=
  match c with AnyInput n => at_node g n variable | AddEdge _ d _ => at_node g d variable | _ => True end.
Definition compiler_step (g : graph) (x : cstep tkey) : Prop :=
  match x with CChanges cs => Forall (compiler_chg g) cs | CLink _ o _ => at_node g o an_op | CResolve _ => True end.
