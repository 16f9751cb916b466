(** How an argument with its types should be shown. *)
From Coq Require Import String List ZArith NArith Bool Arith.
From Verif Require Import Model.Base Model.Value Model.Ast Model.Registry Model.AstGraph Spec.RegistrySpec Spec.AstGraphSpec.
Import ListNotations.
Set Implicit Arguments.

Definition type_word (t : ty) : str :=
  match t with
  | TNil => lit "Nil" | TBool => lit "Bool" | TNum => lit "Num" | TStr => lit "Str" | TTab => lit "Table" | TTabRow => lit "TableRow"
  | TDef d => td_name d
  end.
Definition colon (t : option ty) : str := match t with Some t => lit ":" ++ type_word t | None => lit ":?" end.

(** Every expression has a block, no block more than 256 terms. *)
Inductive whole : arg -> Prop :=
| whole_leaf : forall a, (forall e, a <> AExpr e) -> whole a
| whole_expr : forall e, ex_blocks e <> [] ->
    (forall b, In b (ex_blocks e) -> length (blk_terms b) <= 256 /\ forall a, In (TArg a) (blk_terms b) -> whole a) -> whole (AExpr e).

Section Noted.
  Variable g : graph.
  Variables ins outs : nat -> option ty.
  Variable verbose : bool.

  (** The input of the op is known, and there is an implementation for it. *)
  Definition settled (o : nat) : Prop := exists t k c, ins o = Some t /\ In (k, c) (keyed g o) /\ match k with Some t' => ty_eqb t' t = true | None => True end.
  Definition extra (t : option ty) : str := if verbose then colon t else [].

  (** Node [n] of the graph is for this argument; the text has what is written, each part with the types of its node. *)
  Inductive noted : nat -> arg -> str -> Prop :=
  | noted_empty : forall n t, tg_str t = [] -> noted n (AIdent t) (lit "''" ++ extra (outs n))
  | noted_ident : forall n t, tg_str t <> [] -> noted n (AIdent t) (tg_str t ++ extra (outs n))
  | noted_num : forall n z t, noted n (ANum z t) (tg_str t ++ extra (outs n))
  | noted_pound : forall n c t, noted n (APound c t) (tg_str t ++ colon (outs n))
  | noted_var : forall n t, noted n (AVar t) (lit "$" ++ tg_str t ++ colon (outs n))
  | noted_expr : forall n e s, noted_blocks (children g n) (ex_blocks e) s -> noted n (AExpr e) (lit "{" ++ s ++ lit " }" ++ colon (outs n))
  with noted_blocks : list nat -> list block -> str -> Prop :=
  | noted_last : forall o b s, noted_block o b s -> noted_blocks [o] [b] s
  | noted_more : forall o b s os bs r, noted_block o b s -> noted_blocks os bs r -> noted_blocks (o :: os) (b :: bs) (s ++ lit " |" ++ r)
  with noted_block : nat -> block -> str -> Prop :=
  | noted_settled : forall o b t s, blk_op b = Ok t -> settled o -> noted_terms (children g o) (blk_terms b) s ->
      noted_block o b (colon (ins o) ++ lit " " ++ tg_str t ++ extra (outs o) ++ s)
  | noted_open : forall o b t, blk_op b = Ok t -> ~ settled o -> noted_block o b (colon (ins o) ++ lit " " ++ tg_str t ++ extra (outs o))
  with noted_terms : list nat -> list term -> str -> Prop :=
  | noted_nil : noted_terms [] [] []
  | noted_flag : forall n t ns ts s, noted_terms ns ts s -> noted_terms (n :: ns) (TFlag t :: ts) s
  | noted_arg : forall n a x ns ts s, noted n a x -> noted_terms ns ts s -> noted_terms (n :: ns) (TArg a :: ts) (lit " " ++ x ++ s).
End Noted.
