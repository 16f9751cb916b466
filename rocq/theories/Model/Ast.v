(** Abstract syntax. *)
From Coq Require Import String List ZArith NArith Bool.
From Verif Require Import Model.Base.
Import ListNotations.
Set Implicit Arguments.

(** ogma/src/lang/syntax/ast.rs:14-27, 53-84 [Tag]: the span of bytes and the text it covers.  Left out: the anchor, and
    the rest of the line. *)
Record tag := Tag { tg_s : N; tg_e : N; tg_str : str }.

(** ast.rs:132-144 [Location] *)
Inductive loc := LOgma | LShell | LFile (path : str) (line : N).

(** ast.rs:535-551 [Path], [Op] *)
Inductive opref := OpSingle (t : tag) | OpPath (components : list tag) (idx : nat) (rooted : bool).

(** ast.rs:163-172 [Expression], 260-271 [PrefixBlock], 338-349 [DotOperatorBlock], 411-419 [Term], 421-433 [Argument] *)
Inductive arg :=
| AIdent (t : tag)
| ANum (z : Z) (t : tag)
| APound (c : N) (t : tag)
| AVar (t : tag)
| AExpr (e : expr)
with term := TArg (a : arg) | TFlag (t : tag)
with block :=
| BPrefix (op : opref) (terms : list term) (in_ty out_ty : option tag)
| BDot (op : tag) (lhs : arg) (rhs : tag) (out_ty : option tag)
with expr := Expr (t : tag) (blocks : list block) (out_ty : option tag).

Definition ex_tag (e : expr) : tag := let (t, _, _) := e in t.
Definition ex_blocks (e : expr) : list block := let (_, b, _) := e in b.
Definition ex_out (e : expr) : option tag := let (_, _, o) := e in o.

(** ast.rs:440-446 [Argument::tag] *)
Definition arg_tag (a : arg) : tag :=
  match a with AIdent t | ANum _ t | APound _ t | AVar t => t | AExpr e => ex_tag e end.

(** ast.rs:586-593 [Op::is_op]; [is_last] indexes nothing, [last] expects a component. *)
Definition is_op (o : opref) : res (option tag) :=
  match o with
  | OpSingle t => Ok (Some t)
  | OpPath cs i _ => if Nat.eqb (S i) (length cs) then match rev cs with t :: _ => Ok (Some t) | [] => Panic end
                     else Ok None
  end.

(** ast.rs:273-279, 360-363 [IBlock::op]: panics on a path. *)
Definition blk_op (b : block) : res tag :=
  match b with
  | BPrefix op _ _ _ => match is_op op with Ok (Some t) => Ok t | _ => Panic end
  | BDot op _ _ _ => Ok op
  end.

(** ast.rs:281-283, 351-358, 365-367 [IBlock::terms] *)
Definition blk_terms (b : block) : list term :=
  match b with
  | BPrefix _ terms _ _ => terms
  | BDot _ lhs rhs _ => [TArg lhs; TArg (AIdent rhs)]
  end.

(** ast.rs:285-291, 369-375 *)
Definition blk_in (b : block) : option tag := match b with BPrefix _ _ i _ => i | BDot _ _ _ _ => None end.
Definition blk_out (b : block) : option tag := match b with BPrefix _ _ _ o => o | BDot _ _ _ o => o end.

(** ast.rs:450-457 [Parameter]: name and type, as text *)
Definition param : Type := (str * option str)%type.

(** ast.rs:459-474 [DefinitionImpl]; the source is left out. *)
Record defn := Defn {
  d_loc : loc; d_name : str; d_in : option str; d_params : list param; d_expr : expr }.

(** ast.rs:476-521 [DefinitionType], [TypeVariant], [Variant], [Field]: types are still names. *)
Record pfield := PField { pf_name : str; pf_ty : str; pf_params : list str }.
Inductive ptv := PSum (vs : list (str * option (list pfield))) | PProduct (fs : list pfield).
Record ptype := PType { pt_loc : loc; pt_name : str; pt_tv : ptv }.

(** Size of an expression, used as fuel. *)
Fixpoint size_arg (a : arg) : nat :=
  match a with AExpr e => S (size_expr e) | _ => 1 end
with size_term (t : term) : nat :=
  match t with TArg a => S (size_arg a) | TFlag _ => 1 end
with size_block (b : block) : nat :=
  match b with
  | BPrefix _ ts _ _ => S ((fix go (l : list term) : nat := match l with [] => 0 | x :: l => size_term x + go l end) ts)
  | BDot _ a _ _ => 4 + size_arg a
  end
with size_expr (e : expr) : nat :=
  match e with
  | Expr _ bs _ => S ((fix go (l : list block) : nat := match l with [] => 0 | x :: l => size_block x + go l end) bs)
  end.
