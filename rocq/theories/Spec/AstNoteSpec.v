(** The types an author writes next to blocks and expressions. *)
From Coq Require Import String List NArith Bool Arith.
From Verif Require Import Model.Base Model.Value Model.Ast Model.Registry Model.AstGraph Model.TyBuild Spec.AstGraphSpec.
From Verif Require Model.TyGraph.
Import ListNotations.
Set Implicit Arguments.

Definition chg_at (c : chg) : nat := match c with ObligeInput n _ | ObligeOutput n _ => n end.

(** [a] is what is written.  Nothing is asked for where nothing is written, otherwise the type of that name. *)
Definition asks (ts : types) (a : option tag) (ob : ty -> chg) (cs : list chg) : Prop :=
  match a with
  | None => forall t, ~ In (ob t) cs
  | Some x => exists t, get_type ts (tg_str x) = Some t /\ forall t', In (ob t') cs <-> t' = t
  end.

(** Node [n] is expression [e], and [cs] asks for the types written in it. *)
Inductive noted (ts : types) (g : graph) (cs : list chg) : nat -> expr -> Prop :=
| noted_expr : forall n e, node g n = Some (NExpr (ex_tag e)) ->
    (forall t, ~ In (ObligeInput n t) cs) -> asks ts (ex_out e) (ObligeOutput n) cs ->
    Forall2 (noted_block ts g cs) (children g n) (ex_blocks e) -> noted ts g cs n e
with noted_block (ts : types) (g : graph) (cs : list chg) : nat -> block -> Prop :=
| noted_block_intro : forall n b t, node g n = Some (NOp t) -> blk_op b = Ok t ->
    asks ts (blk_in b) (ObligeInput n) cs -> asks ts (blk_out b) (ObligeOutput n) cs ->
    Forall2 (noted_term ts g cs) (children g n) (blk_terms b) -> noted_block ts g cs n b
with noted_term (ts : types) (g : graph) (cs : list chg) : nat -> term -> Prop :=
| noted_sub : forall n e, noted ts g cs n e -> noted_term ts g cs n (TArg (AExpr e))
| noted_other : forall n t, (forall e, t <> TArg (AExpr e)) -> (forall x, node g n <> Some (NExpr x)) ->
    (forall c, In c cs -> chg_at c <> n) -> noted_term ts g cs n t.

(** Implementation [i] at node [c]: the body of a definition asks for what is written in it. *)
Definition noted_impl (ts : types) (g : graph) (cs : list chg) (c : nat) (i : impl) : Prop :=
  match i with IDef d => exists x, children g c = [x] /\ noted ts g cs x (d_expr d) | IIntrinsic _ _ => True end.

(** A type is written for the input or the output of a block, or for the output of an expression, somewhere in [e]. *)
Inductive written : expr -> tag -> Prop :=
| written_out : forall e x, ex_out e = Some x -> written e x
| written_block : forall e b x, In b (ex_blocks e) -> blk_in b = Some x \/ blk_out b = Some x -> written e x
| written_sub : forall e b e' x, In b (ex_blocks e) -> In (TArg (AExpr e')) (blk_terms b) -> written e' x -> written e x.

(** Type [x] is written for side [p], where [n] is the node of [e]. *)
Inductive written_at (g : graph) : nat -> expr -> TyGraph.slot -> tag -> Prop :=
| wa_out : forall n e x, ex_out e = Some x -> written_at g n e (n, TyGraph.Out_) x
| wa_block_in : forall n e i o b x, nth_error (children g n) i = Some o -> nth_error (ex_blocks e) i = Some b -> blk_in b = Some x ->
    written_at g n e (o, TyGraph.In_) x
| wa_block_out : forall n e i o b x, nth_error (children g n) i = Some o -> nth_error (ex_blocks e) i = Some b -> blk_out b = Some x ->
    written_at g n e (o, TyGraph.Out_) x
| wa_sub : forall n e i o b j a e' p x, nth_error (children g n) i = Some o -> nth_error (ex_blocks e) i = Some b ->
    nth_error (children g o) j = Some a -> nth_error (blk_terms b) j = Some (TArg (AExpr e')) -> written_at g a e' p x -> written_at g n e p x.

(** The op at [o] has an implementation that takes a [t]. *)
Definition takes (g : graph) (o : nat) (t : ty) : Prop :=
  exists k c, In (k, c) (keyed g o) /\ match k with Some t' => key_of t' = key_of t | None => True end.
