(** Lexical scope, in terms of the expression as written. *)
From Coq Require Import String List ZArith NArith Bool Arith.
From Verif Require Import Model.Base Model.Value Model.Ast Model.Registry Model.AstGraph Model.Locals Spec.AstGraphSpec.
Import ListNotations.
Set Implicit Arguments.

(** [m] comes directly before [n]: the block before a block, the expression before its first block, the block before
    each of its arguments.  Nothing comes before the expression of a definition. *)
Inductive comes_before (g : graph) : nat -> nat -> Prop :=
| cb_block : forall e t l a b r, node g e = Some (NExpr t) -> children g e = l ++ a :: b :: r -> comes_before g a b
| cb_first : forall e t a r, node g e = Some (NExpr t) -> children g e = a :: r -> comes_before g e a
| cb_arg : forall o t a, node g o = Some (NOp t) -> In a (children g o) -> is_flag g a = false -> comes_before g o a.

Inductive ahead (g : graph) : nat -> nat -> Prop :=
| ah_refl : forall n, ahead g n n
| ah_step : forall a b c, ahead g a b -> comes_before g b c -> ahead g a c.

(** A variable [x] introduced at a node. *)
Definition binding : Type := (nat * str * elocal)%type.

(** What a sequence of changes introduces, slots numbered from [k]. *)
Fixpoint introduced (k : nat) (cs : list lchg) : list binding :=
  match cs with
  | [] => []
  | NewVar x t n :: cs => (n, x, EVar t k) :: introduced (S k) cs
  | NewLazy x to n :: cs => (n, x, EPtr to) :: introduced k cs
  | _ :: cs => introduced k cs
  end.
Fixpoint seeded (k : nat) (vs : list (str * ty)) : list binding :=
  match vs with [] => [] | (x, t) :: vs => (0, x, EVar t k) :: seeded (S k) vs end.
Definition history (vs : list (str * ty)) (cs : list lchg) : list binding := seeded 0 vs ++ introduced (length vs) cs.

(** The latest binding of [x] made at [n] itself. *)
Fixpoint bound_at (bs : list binding) (n : nat) (x : str) : option elocal :=
  match bs with
  | [] => None
  | (m, y, l) :: bs =>
      match bound_at bs n x with
      | Some l => Some l
      | None => if Nat.eqb m n && str_eqb y x then Some l else None
      end
  end.

(** The closest binding of [x], [n] first, then what comes before. *)
Inductive visible (g : graph) (bs : list binding) (x : str) : nat -> nat -> elocal -> Prop :=
| vis_here : forall n l, bound_at bs n x = Some l -> visible g bs x n n l
| vis_before : forall m n d l, bound_at bs n x = None -> comes_before g m n -> visible g bs x m d l -> visible g bs x n d l.

(** Somewhere inside what is written at [a]. *)
Inductive inside (g : graph) (a : nat) : nat -> Prop :=
| in_here : inside g a a
| in_below : forall m n, inside g a m -> parents g n = [m] -> inside g a n.

(** The changes a compiler may make: a variable for a block is introduced by the block before it as long as that is not
    sealed, a variable for an argument by its op as long as that is neither sealed nor uncoupled from the argument,
    and a parameter by the call as long as the expression of the definition is not sealed. *)
Definition may_bind (g : graph) (done : list lchg) (n : nat) : Prop :=
  (exists e t l a r, node g e = Some (NExpr t) /\ children g e = l ++ a :: n :: r /\ ~ In (Seal a) done) \/
  (exists o t, node g o = Some (NOp t) /\ In n (children g o) /\ is_flag g n = false /\ ~ In (Seal o) done /\ ~ In (BreakEdge o n) done) \/
  (exists c t ps, node g c = Some (NDef t ps) /\ In n (children g c) /\ ~ In (SealExpr n) done).
Definition may (g : graph) (done : list lchg) (c : lchg) : Prop :=
  match c with
  | NewVar _ _ n | NewLazy _ _ n => may_bind g done n
  | Seal o => exists t, node g o = Some (NOp t)
  | BreakEdge o a => (exists t, node g o = Some (NOp t)) /\ In a (children g o)
  | SealExpr n => exists c t ps, node g c = Some (NDef t ps) /\ In n (children g c)
  end.
Fixpoint orderly (g : graph) (done cs : list lchg) : Prop :=
  match cs with [] => True | c :: cs => may g done c /\ orderly g (done ++ [c]) cs end.

(** An answer at [n] has to wait for [m]: for [n] itself and for what comes before.  An argument waits for what comes before its
    op, and for the op unless it is uncoupled. *)
Inductive awaits (g : graph) (done : list lchg) : nat -> nat -> Prop :=
| aw_here : forall n, awaits g done n n
| aw_before : forall a b c, comes_before g b a -> ~ In (BreakEdge b a) done -> awaits g done b c -> awaits g done a c
| aw_arg : forall a o t b c, node g o = Some (NOp t) -> In a (children g o) -> is_flag g a = false -> comes_before g b o ->
    awaits g done b c -> awaits g done a c.
(** Nothing more is introduced at [n]. *)
Definition finished (g : graph) (done : list lchg) (n : nat) : Prop :=
  (exists o t, node g o = Some (NOp t) /\ In n (children g o) /\ is_flag g n = false) \/ n = 0 \/ In (Seal n) done \/ In (SealExpr n) done.

(** The node a change is about exists; only an argument is uncoupled from its op. *)
Definition in_graph (g : graph) (c : lchg) : Prop :=
  match c with
  | NewVar _ _ n | NewLazy _ _ n | Seal n | SealExpr n => n < length (g_nodes g)
  | BreakEdge o a => (exists t, node g o = Some (NOp t)) /\ In a (children g o)
  end.

(** The graph of variables of [g], seeded with [vs] and changed by [cs] (comp/mod.rs:40-66 builds and seeds it, the
    compiler loop applies changes one after the other). *)
Definition locals_of (order : lmap -> lmap) (g : graph) (vs : list (str * ty)) (cs : list lchg) : res lgraph :=
  let? lg := build g in
  let? lg := seed order lg (seed_vars vs) in
  apply_chgs order lg cs.
