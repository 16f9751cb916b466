(** What calls set, and what the bodies of definitions see. *)
From Coq Require Import String List NArith Bool Arith.
From Verif Require Import Model.Base Model.Value Model.Ast Model.Registry Model.AstGraph Model.TyBuild Spec.AstGraphSpec Spec.RegistrySpec Spec.LocalsSpec
  Model.Compile Model.ArgApi Spec.CompileSpec Spec.ArgSpec.
From Verif Require Model.TyGraph Model.Locals.
Import ListNotations.
Set Implicit Arguments.

(** No definition has two parameters of one name; reading a definition sees to that (C39). *)
Definition distinct_params (m : impls) : Prop :=
  forall x k t d, In (x, k) m -> In (t, IDef d) (registered k) -> NoDup (map fst (d_params d)).

Section Spec.
Variables (P : Type) (g : graph).
Notation comp := (comp P binding cparam).
Implicit Types c : comp.

(** An argument that is written. *)
Definition written (n : nat) : Prop := exists o t, node g o = Some (NOp t) /\ In n (args_below g o).
(** [p] is the [j]th parameter of the definition [d] with this body, and [n] is the argument that is written for it. *)
Definition parameter (d body j : nat) (p : aparam) (n : nat) : Prop :=
  exists o k e ps, In (k, d) (keyed g o) /\ node g d = Some (NDef e ps) /\ children g d = [body] /\
    nth_error ps j = Some p /\ nth_error (args_below g o) j = Some n.
(** The variable of a parameter: of the type of the argument if that is a value, or else another name of the argument. *)
Definition serves c (p : aparam) (n : nat) (l : Locals.elocal) : Prop :=
  match l with
  | Locals.EVar t _ => callsite p = true /\ settles c n TyGraph.Out_ (key_of t)
  | Locals.EPtr to => callsite p = false /\ to = n
  end.

(** The parameters [ps] have variables in the body, and the call sets those that are values to the arguments, which are of their
    types. *)
Inductive gives c (body : nat) (t : tkey) : list aparam -> list nat -> list binding -> Prop :=
| gives_end : gives c body t [] [] []
| gives_value : forall p ps n ns u slot a bs, callsite p = true -> declared c body (fst p) (Locals.EVar u slot) -> key_of u = ar_out a ->
    (exists c0, grows c0 c /\ is_argument g c0 n (Takes t :: match snd p with PSpecified u => [Returns (key_of u)] | _ => [] end) a) ->
    gives c body t ps ns bs -> gives c body t (p :: ps) (n :: ns) ((u, slot, a) :: bs)
| gives_name : forall p ps n ns bs, callsite p = false -> declared c body (fst p) (Locals.EPtr n) ->
    gives c body t ps ns bs -> gives c body t (p :: ps) (n :: ns) bs.
(** A call of [d] gives all of the parameters; or the body was compiled without anything in it having found a variable. *)
Definition calls c (d : nat) (t : tkey) (bs : list binding) : Prop :=
  exists o k e ps body, In (k, d) (keyed g o) /\ node g d = Some (NDef e ps) /\ children g d = [body] /\
  ((flags_below g o = [] /\ gives c body t ps (firstn 256 (args_below g o)) bs) \/
   (bs = [] /\ exists c0, grows c0 c /\ (exists ss, has_stack c0 body ss) /\ forall n x l, ahead g body n -> ~ finds c0 n x l)).
End Spec.

(** An intrinsic that only passes on the arguments it was given. *)
Section Fair.
Variables (P : Type) (g : graph).
Inductive fair : prog P -> Prop :=
| fair_eval : forall t x, fair (PEval t x)
| fair_fail : forall e, fair (PFail P e)
| fair_flag : forall x k, (forall f, fair (k f)) -> fair (PFlag x k)
| fair_peek : forall k, (forall a b, (forall n, a = Some n \/ b = Some n -> written g n) -> fair (k a b)) -> fair (PPeek k)
| fair_says : forall t k, fair k -> fair (PSays t k)
| fair_anon : forall t k, fair k -> fair (PAnon t k)
| fair_adds : forall b k, fair k -> fair (PAddsVars b k)
| fair_added : forall k, fair k -> fair (PVarsAdded k)
| fair_create : forall a t k, written g a -> (forall r, fair (k r)) -> fair (PCreate a t k)
| fair_inject : forall a x t k, written g a -> (forall r, fair (k r)) -> fair (PInject a x t k)
| fair_oblige : forall t k, fair k -> fair (POblige t k)
| fair_output : forall k, (forall t, fair (k t)) -> fair (POutput k)
| fair_next : forall k, (forall r, (forall b, r = inl b -> written g (b_node b)) -> fair (k r)) -> fair (PNext k)
| fair_supplied : forall b t k, written g (b_node b) -> (forall r, (forall b, r = inl b -> written g (b_node b)) -> fair (k r)) -> fair (PSupplied b t k)
| fair_returns : forall b t k, written g (b_node b) -> (forall r, (forall b, r = inl b -> written g (b_node b)) -> fair (k r)) -> fair (PReturns b t k)
| fair_decouple : forall b k, written g (b_node b) -> fair k -> fair (PDecouple b k)
| fair_concrete : forall b k, written g (b_node b) -> (forall r, fair (k r)) -> fair (PConcrete b k).
End Fair.
