(** Arguments and parameters, in terms of what is written and what the compiler has settled on. *)
From Coq Require Import String List NArith Bool Arith.
From Verif Require Import Model.Base Model.Value Model.Ast Model.Registry Model.AstGraph Model.TyBuild Model.Compile Model.ArgApi Spec.AstGraphSpec Spec.CompileSpec.
From Verif Require Model.TyGraph Model.Locals.
Import ListNotations.
Set Implicit Arguments.

Section Spec.
Variables (P : Type) (g : graph).
Notation comp := (comp P binding cparam).
Implicit Types c : comp.

(** One type is left for this side. *)
Definition typed c (n : nat) (s : TyGraph.side) (t : tkey) : Prop := settles c n s t \/ kn c n s = Some (TyGraph.Inferred [t]).
(** Several types are, or none. *)
Definition open c (n : nat) (s : TyGraph.side) (ts : list tkey) : Prop := kn c n s = Some (TyGraph.Inferred ts) /\ length ts <> 1.

(** The variable written at [n] is this one, for good. *)
Definition finds c (n : nat) (x : tag) (l : Locals.elocal) : Prop := Locals.get (c_lg c) n (tg_str x) = Ok l.
(** It is not known yet to stand for another argument. *)
Definition unpointed c (n : nat) (x : tag) : Prop := exists b l, Locals.get_opt (c_lg c) n (tg_str x) = Ok (b, l) /\ forall to, l <> Some (Locals.EPtr to).
(** What [n] stands for: itself, or what the argument stands for it is a name of. *)
Inductive stands c : nat -> nat -> Prop :=
| stands_itself : forall n x, node g n = Some x -> (forall t, x = NVar t -> unpointed c n t) -> stands c n n
| stands_for : forall n t to m, node g n = Some (NVar t) -> finds c n t (Locals.EPtr to) -> stands c to m -> stands c n m.

(** What there is at [n] to be evaluated. *)
Inductive holds c (n : nat) : hold -> Prop :=
| holds_ident : forall x, node g n = Some (NIdent x) -> holds c n (HLit n KStr)
| holds_num : forall z x, node g n = Some (NNum z x) -> holds c n (HLit n KNum)
| holds_pound : forall p x t, node g n = Some (NPound p x) -> In (p, t) [(PNil, KNil); (PTrue, KBool); (PFalse, KBool); (PNewline, KStr)] -> holds c n (HLit n t)
| holds_input : forall x t, node g n = Some (NPound PInput x) -> typed c n TyGraph.Out_ t -> holds c n (HInput t)
| holds_var : forall x t slot, node g n = Some (NVar x) -> finds c n x (Locals.EVar t slot) -> holds c n (HVar t slot)
| holds_expr : forall x ss s, node g n = Some (NExpr x) -> has_stack c n (ss ++ [s]) -> holds c n (HExpr n (s_out s)).

(** What is asked of an argument: to take a type, to return a type. *)
Inductive demand := Takes (t : tkey) | Returns (t : tkey).
(** The demands that are met, one after the other. *)
Inductive meets : builder -> list demand -> builder -> Prop :=
| meets_end : forall b, meets b [] b
| meets_takes : forall b t b1 asks l b2, ArgApi.supplied b (Some t) = (inl b1, asks) -> meets b1 l b2 -> meets b (Takes t :: l) b2
| meets_block : forall b t b1 asks l b2, b_blk b = Some t -> ArgApi.supplied b None = (inl b1, asks) -> meets b1 l b2 -> meets b (Takes t :: l) b2
| meets_returns : forall b t b1 asks l b2, returns b t = Good (inl b1, asks) -> meets b1 l b2 -> meets b (Returns t :: l) b2.

(** [a] is the argument [n], and all the demands are met. *)
Definition is_argument c (n : nat) (l : list demand) (a : argument) : Prop :=
  stands c n (ar_node a) /\ holds c (ar_node a) (ar_hold a) /\ hold_ty (ar_hold a) = ar_out a /\
  typed c n TyGraph.Out_ (ar_out a) /\
  (typed c n TyGraph.In_ (ar_in a) \/ kn c n TyGraph.In_ = Some TyGraph.Any /\ In (Takes (ar_in a)) l) /\
  (forall t, In (Takes t) l -> t = ar_in a) /\ (forall t, In (Returns t) l -> t = ar_out a).

(** ** Parameters *)
(** The variable [x] is introduced at [n]. *)
Definition declared c (n : nat) (x : str) (l : Locals.elocal) : Prop :=
  exists v i, nth_error (Locals.lg_nodes (c_lg c)) n = Some v /\ alookup str_eqb x (Locals.va_map v) = Some (Locals.Local i n) /\
    nth_error (Locals.lg_locals (c_lg c)) i = Some l.

(** The argument [n] can be set to a parameter that is a value: it returns what it should, and is not a variable that does not
    exist. *)
Definition value_for c (n : nat) (p : aparam) : Prop :=
  (exists t, typed c n TyGraph.Out_ t /\ forall u, snd p = PSpecified u -> key_of u = t) /\
  exists m, stands c n m /\ forall x, node g m = Some (NVar x) -> exists l, finds c m x l.

(** The parameters [ps] of a definition with this body, the first being the [i]th, are set to the arguments [ns] in order: there is a
    variable in the body for each; those for values are [cs]. *)
Inductive sets c (body : nat) : nat -> list aparam -> list nat -> list cparam -> Prop :=
| sets_end : forall i, sets c body i [] [] []
| sets_value : forall i p ps n ns t slot cs, callsite p = true -> value_for c n p -> declared c body (fst p) (Locals.EVar t slot) ->
    sets c body (S i) ps ns cs -> sets c body i (p :: ps) (n :: ns) (CParam p t slot i :: cs)
| sets_lazy : forall i p ps n ns to cs, callsite p = false -> declared c body (fst p) (Locals.EPtr to) ->
    sets c body (S i) ps ns cs -> sets c body i (p :: ps) (n :: ns) cs.

(** What setting the parameters [ps] to the arguments [ns] may ask for: a name for an argument that is not a value; a variable of the type of
    an argument that is; that an argument returns what it should. *)
Definition may_ask (rep : tkey -> ty) c (body : nat) (ps : list aparam) (ns : list nat) (a : ask) : Prop :=
  exists i p n, nth_error ps i = Some p /\ nth_error ns i = Some n /\
    match a with
    | AskLazy y to at_ => y = fst p /\ to = n /\ at_ = body /\ callsite p = false
    | AskVar y t at_ => y = fst p /\ at_ = body /\ callsite p = true /\ value_for c n p /\ exists u, t = rep u /\ typed c n TyGraph.Out_ u
    | AskReturns m u => (exists t, snd p = PSpecified t /\ key_of t = u) /\ stands c n m /\ exists ts, open c n TyGraph.Out_ ts /\ In u ts
    | _ => False
    end.

(** What is passed to a parameter by a call that is given a [t]. *)
Definition passes c (args : list nat) (t : tkey) (p : cparam) (b : binding) : Prop :=
  exists n a, nth_error args (cp_idx p) = Some n /\ b = (cp_ty p, cp_slot p, a) /\
    is_argument c n (Takes t :: match snd (cp_param p) with PSpecified u => [Returns (key_of u)] | _ => [] end) a.

(** What a definition [d] may be called with, given a [t]: nothing, if its parameters were never set; or what is written. *)
Definition called_with c (d : nat) (t : tkey) (bs : list binding) : Prop :=
  exists o k e ps body, In (k, d) (keyed g o) /\ node g d = Some (NDef e ps) /\ children g d = [body] /\
  exists c0, grows c0 c /\ at_ease c0 /\
  ((alookup Nat.eqb d (c_params c0) = None /\ bs = []) \/
   exists c1 cs, grows c1 c0 /\ at_ease c1 /\ flags_below g o = [] /\ sets c1 body 0 ps (firstn 256 (args_below g o)) cs /\
     Forall2 (passes c0 (firstn 256 (args_below g o)) t) cs bs).
End Spec.
