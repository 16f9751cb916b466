(** How all the text of a program is taken up by its tree: the grammar of ParseSpec without its conditions on spaces and words. *)
From Coq Require Import String List ZArith NArith Bool Arith.
From Verif Require Import Model.Base Model.Utf Model.Ast Model.Parse Spec.ParseSpec.
Import ListNotations.
Set Implicit Arguments.

Section Loose.
  Variable k : lang.

  (** A word, or anything in quotes. *)
  Definition l_word (t : tag) (s : str) : Prop := (word k (tg_str t) /\ s = tg_str t) \/ in_quotes (tg_str t) s.
  Inductive l_arg : arg -> str -> Prop :=
  | l_ident : forall t s, l_word t s -> l_arg (AIdent t) s
  | l_num : forall z t, word k (tg_str t) -> number k (tg_str t) = Some z -> l_arg (ANum z t) (tg_str t)
  | l_pound : forall c t, alpha k c = true -> l_arg (APound c t) [35%N; c]
  | l_var : forall t, name k (tg_str t) -> l_arg (AVar t) (36%N :: tg_str t)
  | l_braces : forall t bs out w s w' so, spaces w -> l_blocks bs s -> spaces w' -> w_ty k out so -> l_arg (AExpr (Expr t bs out)) (lit "{" ++ w ++ s ++ w' ++ lit "}" ++ so)
  (** an op without braces *)
  | l_bare : forall t b w s w', spaces w -> l_block b s -> spaces w' -> l_arg (AExpr (Expr t [b] None)) (w ++ s ++ w')
  | l_dot : forall t o l r out s sr so, l_arg l s -> tg_str o = lit "." -> name k (tg_str r) /\ sr = tg_str r \/ in_quotes (tg_str r) sr -> w_ty k out so ->
      l_arg (AExpr (Expr t [BDot o l r out] None)) (s ++ lit "." ++ sr ++ so)
  with l_term : term -> str -> Prop :=
  | l_targ : forall a s, l_arg a s -> l_term (TArg a) s
  | l_tflag : forall t s, l_word t s -> l_term (TFlag t) (lit "--" ++ s)
  with l_terms : list term -> str -> Prop :=
  | l_terms_nil : l_terms [] []
  | l_terms_cons : forall t ts w s w' s', spaces w -> l_term t s -> spaces w' -> l_terms ts s' -> l_terms (t :: ts) (w ++ s ++ w' ++ s')
  with l_block : block -> str -> Prop :=
  | l_prefix : forall o ts i out si w so sout sts, w_ty k i si -> spaces w -> w_op k o so -> w_ty k out sout -> l_terms ts sts ->
      l_block (BPrefix o ts i out) (si ++ w ++ so ++ sout ++ sts)
  with l_blocks : list block -> str -> Prop :=
  | l_blocks_cons : forall b bs w s w' s', spaces w -> l_block b s -> spaces w' -> l_rest bs s' -> l_blocks (b :: bs) (w ++ s ++ w' ++ s')
  (** What follows a block: blocks after bars, and at the end one that needs no bar. *)
  with l_rest : list block -> str -> Prop :=
  | l_rest_nil : l_rest [] []
  | l_rest_bar : forall b bs w s w' s', spaces w -> l_block b s -> spaces w' -> l_rest bs s' -> l_rest (b :: bs) (lit "|" ++ w ++ s ++ w' ++ s')
  | l_rest_bare : forall b w s w', spaces w -> l_block b s -> spaces w' -> l_rest [b] (w ++ s ++ w').

  (** Characters that are white to Unicode may follow. *)
  Definition whites (w : str) : Prop := forall c, In c w -> white k c = true.
  Definition l_expr (e : expr) (s : str) : Prop := ex_out e = None /\ exists s' w, l_blocks (ex_blocks e) s' /\ whites w /\ s = s' ++ w.
  Inductive l_def : tag -> option tag -> list aparam -> expr -> str -> Prop :=
  | l_def_intro : forall n ity ps e w0 w1 st w2 sp w3 w4 se w5 w6, w_op k (OpSingle n) (tg_str n) -> spaces w0 -> spaces w1 ->
      match ity with Some t => name k (tg_str t) /\ st = tg_str t | None => st = [] end -> spaces w2 -> w_params k ps sp -> spaces w3 ->
      spaces w4 -> ex_out e = None -> l_blocks (ex_blocks e) se -> spaces w5 -> whites w6 ->
      l_def n ity ps e (w0 ++ lit "def " ++ tg_str n ++ w1 ++ st ++ w2 ++ lit "(" ++ sp ++ lit ")" ++ w3 ++ lit "{" ++ w4 ++ se ++ w5 ++ lit "}" ++ w6).
End Loose.

(** ** Letters *)
(** The letters and digits of a text. *)
Definition letters (k : lang) (s : str) : str := filter (alnum k) s.
(** What is written in a tree, in order. *)
Definition t_opt (o : option tag) : str := match o with Some t => tg_str t | None => [] end.
Definition t_op (o : opref) : str := match o with OpSingle t => tg_str t | OpPath cs _ _ => concat (map (@tg_str) cs) end.
Fixpoint t_arg (a : arg) : str :=
  match a with
  | AIdent t | ANum _ t | AVar t => tg_str t
  | APound c _ => [c]
  | AExpr e => t_expr e
  end
with t_term (t : term) : str := match t with TArg a => t_arg a | TFlag t => tg_str t end
with t_block (b : block) : str :=
  match b with
  | BPrefix o ts i out => t_opt i ++ t_op o ++ t_opt out ++ concat (map t_term ts)
  | BDot _ l r out => t_arg l ++ tg_str r ++ t_opt out
  end
with t_expr (e : expr) : str := match e with Expr _ bs out => concat (map t_block bs) ++ t_opt out end.
Definition t_param (p : aparam) : str := tg_str (fst p) ++ t_opt (snd p).
Definition t_def (n : tag) (ity : option tag) (ps : list aparam) (e : expr) : str := lit "def" ++ tg_str n ++ t_opt ity ++ concat (map t_param ps) ++ t_expr e.
