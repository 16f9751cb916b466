(** Programs that are not finished, and what comes next. *)
From Coq Require Import String List ZArith NArith Bool Arith.
From Verif Require Import Model.Base Model.Utf Model.Ast Model.Parse Model.Highlight Model.Complete Model.Expect Spec.ParseSpec.
Import ListNotations.
Set Implicit Arguments.

(** What the parser returns apart from what it expects. *)
Definition forget {A} (r : xres A) : pres A :=
  match r with XOk i a => POk i a | XErr _ => PErr | XFail _ => PFail | XFuel => PFuel end.
(** It fails expecting [x]. *)
Definition expects {A} (r : xres A) (x : expecting) : Prop := r = XErr x \/ r = XFail x.

Section Unfinished.
  Variable k : lang.

  (** The text ends in the terms of a block; what is given is its end, from after the op. *)
  Inductive u_terms : str -> expecting -> Prop :=
  (** past a term *)
  | ut_term : forall t w s s' x, gap w -> w_term k t s -> u_terms s' x -> u_terms (w ++ s ++ s') x
  (** past an op that is given as a term without braces, in its own terms *)
  | ut_bare : forall t out w so s x, gap w -> In (tg_str t) symbols \/ names k (tg_str t) -> w_ty k out so -> u_terms s x -> known k (tg_str t) = true ->
      (forall a b, tg_str t = a ++ b -> (b = [] \/ exists b', b = 58%N :: b') -> ~ In 58%N a -> number k a = None) ->
      u_terms (w ++ tg_str t ++ so ++ s) x
  (** in braces *)
  | ut_open : forall w s x, gap w -> u_blocks s x -> u_terms (w ++ lit "{" ++ s) x
  (** in braces whose expression could be finished: another term, or the brace *)
  | ut_unclosed : forall w bs s, gap w -> w_blocks k bs s -> u_terms (w ++ lit "{" ++ s) XTerm
  (** after the colon of a type of an expression in braces *)
  | ut_type : forall w bs s, gap w -> w_blocks k bs s -> u_terms (w ++ lit "{" ++ s ++ lit "}:") XType
  (** after a hash *)
  | ut_pound : forall w, gap w -> u_terms (w ++ lit "#") XSpec
  with u_block : str -> expecting -> Prop :=
  | ub_terms : forall o i out si w so sout s x, w_ty k i si -> (i = None -> w = []) -> (i <> None -> gap w) ->
      w_op k o so -> w_ty k out sout -> u_terms s x -> u_block (si ++ w ++ so ++ sout ++ s) x
  (** after the colon of the type of the input, of the output *)
  | ub_in : u_block (lit ":") XType
  | ub_out : forall o i si w so, w_ty k i si -> (i = None -> w = []) -> (i <> None -> gap w) -> w_op k o so -> u_block (si ++ w ++ so ++ lit ":") XType
  with u_blocks : str -> expecting -> Prop :=
  (** at the start, after a bar or a brace *)
  | us_start : forall w, spaces w -> u_blocks w XImpl
  | us_block : forall w s x, spaces w -> u_block s x -> u_blocks (w ++ s) x
  | us_more : forall b w s w' s' x, spaces w -> w_block k b s -> spaces w' -> u_blocks s' x -> u_blocks (w ++ s ++ w' ++ lit "|" ++ s') x.

  (** The front of a definition, up to the body. *)
  Inductive w_head : str -> Prop :=
  | w_head_any : forall n ps w1 sp, In (tg_str n) symbols \/ names k (tg_str n) -> spaces w1 -> w_params k ps sp -> NoDup (map param_name ps) ->
      w_head (lit "def " ++ tg_str n ++ w1 ++ lit "(" ++ sp ++ lit ")")
  | w_head_ty : forall n ty ps w1 w1' sp, In (tg_str n) symbols \/ names k (tg_str n) -> name k (tg_str ty) -> gap w1 -> spaces w1' -> w_params k ps sp -> NoDup (map param_name ps) ->
      w_head (lit "def " ++ tg_str n ++ w1 ++ tg_str ty ++ w1' ++ lit "(" ++ sp ++ lit ")").
End Unfinished.
