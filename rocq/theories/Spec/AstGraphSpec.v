(** What the expression graph should look like; call structure of definitions. *)
From Coq Require Import String List ZArith NArith Bool Arith.
From Verif Require Import Model.Base Model.Value Model.Ast Model.Registry Model.AstGraph Spec.RegistrySpec.
Import ListNotations.
Set Implicit Arguments.

(** [op] is written somewhere in the expression. *)
Inductive occurs (op : str) : expr -> Prop :=
| occurs_here : forall e b t, In b (ex_blocks e) -> blk_op b = Ok t -> tg_str t = op -> occurs op e
| occurs_sub : forall e b e', In b (ex_blocks e) -> In (TArg (AExpr e')) (blk_terms b) -> occurs op e' -> occurs op e.

(** No op of the expression is a path. *)
Inductive pathless : expr -> Prop :=
| pathless_intro : forall e,
    (forall b, In b (ex_blocks e) -> exists t, blk_op b = Ok t) ->
    (forall b e', In b (ex_blocks e) -> In (TArg (AExpr e')) (blk_terms b) -> pathless e') -> pathless e.

(** Below [n], in the order written. *)
Definition children (g : graph) (n : nat) : list nat :=
  map e_dst (filter (fun e => Nat.eqb (e_src e) n && match e_rel e with RNormal => true | _ => false end) (g_edges g)).

Inductive shows (g : graph) : nat -> expr -> Prop :=
| shows_intro : forall n e, node g n = Some (NExpr (ex_tag e)) -> Forall2 (shows_block g) (children g n) (ex_blocks e) ->
    shows g n e
with shows_block (g : graph) : nat -> block -> Prop :=
| shows_block_intro : forall n b t, node g n = Some (NOp t) -> blk_op b = Ok t ->
    Forall2 (shows_term g) (children g n) (blk_terms b) -> shows_block g n b
with shows_term (g : graph) : nat -> term -> Prop :=
| shows_flag : forall n t, node g n = Some (NFlag t) -> shows_term g n (TFlag t)
| shows_ident : forall n t, node g n = Some (NIdent t) -> shows_term g n (TArg (AIdent t))
| shows_num : forall n z t, node g n = Some (NNum z t) -> shows_term g n (TArg (ANum z t))
| shows_pound : forall n c p t, node g n = Some (NPound p t) ->
    In (c, p) [(110%N, PNil); (116%N, PTrue); (102%N, PFalse); (105%N, PInput); (98%N, PNewline)] ->
    shows_term g n (TArg (APound c t))
| shows_var : forall n t, node g n = Some (NVar t) -> shows_term g n (TArg (AVar t))
| shows_expr : forall n e, shows g n e -> shows_term g n (TArg (AExpr e)).

(** [c] is a node for implementation [i]. *)
Definition shows_impl (g : graph) (c : nat) (i : impl) : Prop :=
  match i with
  | IIntrinsic _ f => exists t, node g c = Some (NIntrinsic t f)
  | IDef d => (exists ps, node g c = Some (NDef (ex_tag (d_expr d)) ps) /\ map fst ps = map fst (d_params d)) /\
              exists x, children g c = [x] /\ shows g x (d_expr d)
  end.

(** The arguments and the flags below an op. *)
Definition args_below (g : graph) (op : nat) : list nat := filter (fun n => negb (is_flag g n)) (children g op).
Definition flags_below (g : graph) (op : nat) : list nat := filter (is_flag g) (children g op).

(** The edges into [n] other than those that pass terms on. *)
Definition parents (g : graph) (n : nat) : list nat :=
  map e_src (filter (fun e => Nat.eqb (e_dst e) n && match e_rel e with RTerm _ => false | _ => true end) (g_edges g)).

(** The implementations of an op in the graph, in the order they were added. *)
Definition keyed (g : graph) (op : nat) : list (option ty * nat) :=
  flat_map (fun e => match e_rel e with RKeyed k => if Nat.eqb (e_src e) op then [(k, e_dst e)] else [] | _ => [] end) (g_edges g).

(** A path of edges. *)
Inductive reach (g : graph) : nat -> nat -> Prop :=
| reach_refl : forall a, reach g a a
| reach_step : forall a b c r, reach g a b -> In (Edge b c r) (g_edges g) -> reach g a c.

(** [op], written [t], is inside the body of a definition for an op written the same, with the same type. *)
Definition recursive_use (g : graph) (op : nat) (t : tag) (key : ty) : Prop :=
  exists o c t' key', In (Edge o c (RKeyed (Some key'))) (g_edges g) /\ node g o = Some (NOp t') /\
    tg_str t' ++ lit ":" ++ show_ty key' = tg_str t ++ lit ":" ++ show_ty key /\ reach g c op.

(** Registered implementations without some of the definitions that would recurse. *)
Inductive kept_of (skip : ty -> Prop) : list (option ty * impl) -> list (option ty * impl) -> Prop :=
| kept_nil : kept_of skip [] []
| kept_cons : forall e l l', kept_of skip l l' -> kept_of skip (e :: l) (e :: l')
| kept_skip : forall t d l l', skip t -> kept_of skip l l' -> kept_of skip ((Some t, IDef d) :: l) l'.

Definition registered (k : keys) : list (option ty * impl) :=
  map (fun e => (Some (fst e), snd e)) (k_tys k) ++ match k_any k with Some i => [(None, i)] | None => [] end.

(** The op node [op] has the implementations registered for it. *)
Definition shows_op (m : impls) (g : graph) (op : nat) (t : tag) : Prop :=
  exists k ps, In (tg_str t, k) m /\ kept_of (recursive_use g op t) (registered k) (map fst ps) /\
    keyed g op = map (fun p => (fst (fst p), snd p)) ps /\ Forall (fun p => shows_impl g (snd p) (snd (fst p))) ps.

(** From the root to [n], each node the only parent of the next. *)
Definition root_path (g : graph) (n : nat) (p : list nat) : Prop :=
  nth_error p 0 = Some 0 /\ nth_error p (length p - 1) = Some n /\
  forall i a b, nth_error p i = Some a -> nth_error p (S i) = Some b -> parents g b = [a].

Definition is_flag_term (t : term) : bool := match t with TFlag _ => true | _ => false end.

(** [op] calls [op'] if some implementation of it does. *)
Definition has_impl (m : impls) (op : str) (i : impl) : Prop :=
  exists k, In (op, k) m /\ (k_any k = Some i \/ exists t, In (t, i) (k_tys k)).
Definition calls (m : impls) (op op' : str) : Prop := exists d, has_impl m op (IDef d) /\ occurs op' (d_expr d).
Definition acyclic (m : impls) : Prop := exists rank : str -> nat, forall a b, calls m a b -> rank b < rank a.

(** Calls of definitions without input type nest [n] deep below the op. *)
Inductive deep (m : impls) : nat -> str -> Prop :=
| deep_O : forall x, deep m 0 x
| deep_S : forall n x d y, at_key m x None = Some (IDef d) -> occurs y (d_expr d) -> deep m n y -> deep m (S n) x.

(** Accepted definitions in a history, with the state before. *)
Fixpoint fresh_names (s : defs) (used : str -> Prop) (cs : list cmd) : Prop :=
  match cs with
  | [] => True
  | c :: cs =>
      let r := process false s c in
      let used' op := used op \/ contains_op (df_impls (snd r)) op = true in
      (match c with CDef d => fst r = Ok tt -> ~ used (d_name d) | _ => True end) /\
      fresh_names (snd r) used' cs
  end.
