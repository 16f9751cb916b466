(** How expressions and definitions are written, and where spans should lie. *)
From Coq Require Import String List ZArith NArith Bool Arith.
From Verif Require Import Model.Base Model.Utf Model.Ast Model.Parse.
Import ListNotations.
Set Implicit Arguments.

(** ** Spans *)
Section Spans.
  Variable line : str.

  (** The span lies between two positions and covers the text. *)
  Definition sp_tag (lo hi : nat) (t : tag) : Prop :=
    lo <= N.to_nat (tg_s t) /\ N.to_nat (tg_s t) <= N.to_nat (tg_e t) /\ N.to_nat (tg_e t) <= hi /\
    slice_bytes (N.to_nat (tg_s t)) (N.to_nat (tg_e t)) line = Ok (tg_str t).
  Definition sp_opt (lo hi : nat) (o : option tag) : Prop := match o with Some t => sp_tag lo hi t | None => lo <= hi end.
  Inductive sp_tags : nat -> nat -> list tag -> Prop :=
  | sp_tags_nil : forall lo hi, lo <= hi -> sp_tags lo hi []
  | sp_tags_cons : forall lo m hi t ts, sp_tag lo m t -> sp_tags m hi ts -> sp_tags lo hi (t :: ts).
  Definition sp_op (lo hi : nat) (o : opref) : Prop :=
    match o with OpSingle t => sp_tag lo hi t | OpPath cs _ _ => sp_tags lo hi cs end.

  (** The parts lie one after the other; those of an expression inside its span. *)
  Inductive sp_arg : nat -> nat -> arg -> Prop :=
  | sp_ident : forall lo hi t, sp_tag lo hi t -> sp_arg lo hi (AIdent t)
  | sp_num : forall lo hi z t, sp_tag lo hi t -> sp_arg lo hi (ANum z t)
  | sp_pound : forall lo hi c t, sp_tag lo hi t -> sp_arg lo hi (APound c t)
  | sp_var : forall lo hi t, sp_tag lo hi t -> sp_arg lo hi (AVar t)
  | sp_aexpr : forall lo hi e, sp_expr lo hi e -> sp_arg lo hi (AExpr e)
  with sp_term : nat -> nat -> term -> Prop :=
  | sp_targ : forall lo hi a, sp_arg lo hi a -> sp_term lo hi (TArg a)
  | sp_tflag : forall lo hi t, sp_tag lo hi t -> sp_term lo hi (TFlag t)
  with sp_terms : nat -> nat -> list term -> Prop :=
  | sp_terms_nil : forall lo hi, lo <= hi -> sp_terms lo hi []
  | sp_terms_snoc : forall lo m hi ts t, sp_terms lo m ts -> sp_term m hi t -> sp_terms lo hi (ts ++ [t])
  with sp_block : nat -> nat -> block -> Prop :=
  | sp_prefix : forall lo a b c hi o ts i out, sp_opt lo a i -> sp_op a b o -> sp_opt b c out -> sp_terms c hi ts ->
      sp_block lo hi (BPrefix o ts i out)
  | sp_dot : forall lo a b c hi o l r out, sp_arg lo a l -> sp_tag a b o -> sp_tag b c r -> sp_opt c hi out ->
      sp_block lo hi (BDot o l r out)
  with sp_blocks : nat -> nat -> list block -> Prop :=
  | sp_blocks_nil : forall lo hi, lo <= hi -> sp_blocks lo hi []
  | sp_blocks_snoc : forall lo m hi bs b, sp_blocks lo m bs -> sp_block m hi b -> sp_blocks lo hi (bs ++ [b])
  with sp_expr : nat -> nat -> expr -> Prop :=
  | sp_expr_intro : forall lo m hi t bs out, sp_tag lo hi t -> bs <> [] -> sp_blocks (N.to_nat (tg_s t)) m bs ->
      sp_opt m (N.to_nat (tg_e t)) out -> sp_expr lo hi (Expr t bs out).
End Spans.

(** ** Trees without spans *)
Definition er_tag (t : tag) : tag := Tag 0 0 (tg_str t).
Definition er_op (o : opref) : opref :=
  match o with OpSingle t => OpSingle (er_tag t) | OpPath cs i r => OpPath (map er_tag cs) i r end.
Fixpoint er_arg (a : arg) : arg :=
  match a with
  | AIdent t => AIdent (er_tag t)
  | ANum z t => ANum z (er_tag t)
  | APound c t => APound c (er_tag t)
  | AVar t => AVar (er_tag t)
  | AExpr e => AExpr (er_expr e)
  end
with er_term (t : term) : term :=
  match t with TArg a => TArg (er_arg a) | TFlag t => TFlag (er_tag t) end
with er_block (b : block) : block :=
  match b with
  | BPrefix o ts i out => BPrefix (er_op o) (map er_term ts) (option_map er_tag i) (option_map er_tag out)
  | BDot o l r out => BDot (er_tag o) (er_arg l) (er_tag r) (option_map er_tag out)
  end
with er_expr (e : expr) : expr :=
  match e with Expr _ bs out => Expr (Tag 0 0 []) (map er_block bs) (option_map er_tag out) end.

(** ** Writing *)

(** Facts about Unicode and numbers. *)
Definition marks : str := lit "|{}:$#""'./\+-*=!<>()" ++ [215%N; 247%N].
Record sane (k : lang) : Prop := Sane {
  sane_alpha : forall c, alpha k c = true -> alnum k c = true;
  sane_white : forall c, In c [32%N; 9%N; 13%N; 10%N] -> white k c = true;
  sane_alnum : forall c, alnum k c = true -> white k c = false /\ ~ In c marks;
  sane_marks : forall c, In c (marks ++ lit "_") -> white k c = false;
  sane_number : forall c t, In c (lit "$#""'") -> number k (c :: t) = None;
  sane_dashes : forall t, number k (lit "--" ++ t) = None }.

Section Write.
  Variable k : lang.

  Definition spaces (w : str) : Prop := forall c, In c w -> In c [32%N; 9%N; 13%N; 10%N].
  Definition gap (w : str) : Prop := w <> [] /\ spaces w.
  Definition name_char (c : N) : Prop := alnum k c = true \/ c = 45%N \/ c = 95%N.
  Definition name (t : str) : Prop := (exists c s, t = c :: s /\ alpha k c = true) /\ forall c, In c t -> name_char c.
  Inductive names : str -> Prop :=
  | names_one : forall n, name n -> names n
  | names_more : forall n ns, name n -> names ns -> names (n ++ lit "::" ++ ns).
  Definition symbols : list str :=
    map lit ["\"; "+"; "-"; "*"; "/"; "="; "!="; ">="; "<="; ">"; "<"; "."]%string ++ [[215%N]; [247%N]].
  (** Neither space nor bar, brace or colon. *)
  Definition word (t : str) : Prop := t <> [] /\ forall c, In c t -> white k c = false /\ ~ In c (lit "|{}:").
  Definition in_quotes (t s : str) : Prop := exists q, In q (lit """'") /\ ~ In q t /\ s = q :: t ++ [q].
  Definition no_prefix (p t : str) : Prop := forall r, t <> p ++ r.

  Definition w_ty (o : option tag) (s : str) : Prop :=
    match o with None => s = [] | Some t => name (tg_str t) /\ s = 58%N :: tg_str t end.
  Inductive w_path : list tag -> str -> Prop :=
  | w_path_two : forall a b, names (tg_str a) -> names (tg_str b) -> w_path [a; b] (tg_str a ++ lit "/" ++ tg_str b)
  | w_path_more : forall a cs s, names (tg_str a) -> w_path cs s -> w_path (a :: cs) (tg_str a ++ lit "/" ++ s).
  Definition w_op (o : opref) (s : str) : Prop :=
    match o with
    | OpSingle t => s = tg_str t /\ (In s symbols \/ names s)
    | OpPath cs i r => i = 0 /\ r = false /\ w_path cs s
    end.

  (** A word that is not a number, a variable, a special literal, a flag or an op. *)
  Definition plain (t : str) : Prop :=
    word t /\ number k t = None /\ no_prefix (lit "--") t /\ (forall c, In c (lit "$#""'") -> no_prefix [c] t) /\
    (forall p, In p symbols -> known k p = true -> no_prefix p t) /\
    (forall n r, name n -> known k n = true -> t = n ++ r -> exists c r', r = c :: r' /\ name_char c).

  (** [w_arg true]: can be followed by a dot. *)
  Inductive w_arg : bool -> arg -> str -> Prop :=
  | w_plain : forall t, plain (tg_str t) -> w_arg false (AIdent t) (tg_str t)
  | w_quoted : forall t s, in_quotes (tg_str t) s -> w_arg true (AIdent t) s
  | w_num : forall z t, word (tg_str t) -> number k (tg_str t) = Some z -> w_arg false (ANum z t) (tg_str t)
  | w_pound : forall c t, (c < 128)%N -> alpha k c = true -> tg_str t = [35%N; c] -> w_arg true (APound c t) [35%N; c]
  | w_var : forall t, name (tg_str t) -> w_arg true (AVar t) (36%N :: tg_str t)
  | w_braces : forall t bs out s so, w_blocks bs s -> w_ty out so ->
      w_arg true (AExpr (Expr t bs out)) (lit "{" ++ s ++ lit "}" ++ so)
  | w_dot : forall t o l r out s sr so, w_arg true l s -> tg_str o = lit "." ->
      name (tg_str r) /\ sr = tg_str r \/ in_quotes (tg_str r) sr -> w_ty out so ->
      w_arg true (AExpr (Expr t [BDot o l r out] None)) (s ++ lit "." ++ sr ++ so)
  with w_term : term -> str -> Prop :=
  | w_targ : forall c a s, w_arg c a s -> w_term (TArg a) s
  | w_tflag : forall t, word (tg_str t) -> (forall c, In c (lit """'") -> no_prefix [c] (tg_str t)) ->
      w_term (TFlag t) (lit "--" ++ tg_str t)
  | w_tflag_quoted : forall t s, in_quotes (tg_str t) s -> w_term (TFlag t) (lit "--" ++ s)
  with w_terms : list term -> str -> Prop :=
  | w_terms_nil : w_terms [] []
  | w_terms_cons : forall t ts w s s', gap w -> w_term t s -> w_terms ts s' -> w_terms (t :: ts) (w ++ s ++ s')
  (** An op at the end needs no braces. *)
  | w_terms_bare : forall et t ts out w s, gap w -> w_block (BPrefix (OpSingle t) ts None out) s -> known k (tg_str t) = true ->
      (forall a b, tg_str t = a ++ b -> (b = [] \/ exists b', b = 58%N :: b') -> ~ In 58%N a -> number k a = None) ->
      w_terms [TArg (AExpr (Expr et [BPrefix (OpSingle t) ts None out] None))] (w ++ s)
  with w_block : block -> str -> Prop :=
  | w_prefix : forall o ts i out si w so sout sts, w_ty i si -> (i = None -> w = []) -> (i <> None -> gap w) ->
      w_op o so -> w_ty out sout -> w_terms ts sts -> w_block (BPrefix o ts i out) (si ++ w ++ so ++ sout ++ sts)
  with w_blocks : list block -> str -> Prop :=
  | w_blocks_one : forall b w s w', spaces w -> w_block b s -> spaces w' -> w_blocks [b] (w ++ s ++ w')
  | w_blocks_more : forall b bs w s w' s', spaces w -> w_block b s -> spaces w' -> w_blocks bs s' ->
      w_blocks (b :: bs) (w ++ s ++ w' ++ lit "|" ++ s').

  Definition w_expr (e : expr) (s : str) : Prop := match e with Expr _ bs out => out = None /\ w_blocks bs s end.

  (** Parameters, a definition *)
  Definition w_param (p : aparam) (s : str) : Prop :=
    name (tg_str (fst p)) /\ exists st, w_ty (snd p) st /\ s = tg_str (fst p) ++ st.
  Inductive w_params : list aparam -> str -> Prop :=
  | w_params_nil : w_params [] []
  | w_params_one : forall p w s w', spaces w -> w_param p s -> spaces w' -> w_params [p] (w ++ s ++ w')
  | w_params_more : forall p ps w s w' s', spaces w -> w_param p s -> gap w' -> w_params ps s' -> ps <> [] ->
      w_params (p :: ps) (w ++ s ++ w' ++ s').
  Definition param_name (p : aparam) : str := tg_str (fst p).
  Inductive w_def : tag -> option tag -> list aparam -> expr -> str -> Prop :=
  | w_def_any : forall n ps e w0 w1 sp w2 w3 se, In (tg_str n) symbols \/ names (tg_str n) ->
      spaces w0 -> spaces w1 -> w_params ps sp -> spaces w2 -> w_expr e se -> spaces w3 ->
      w_def n None ps e (w0 ++ lit "def " ++ tg_str n ++ w1 ++ lit "(" ++ sp ++ lit ")" ++ w2 ++ lit "{" ++ se ++ lit "}" ++ w3)
  | w_def_ty : forall n ty ps e w0 w1 w1' sp w2 w3 se, In (tg_str n) symbols \/ names (tg_str n) -> name (tg_str ty) ->
      spaces w0 -> gap w1 -> spaces w1' -> w_params ps sp -> spaces w2 -> w_expr e se -> spaces w3 ->
      w_def n (Some ty) ps e (w0 ++ lit "def " ++ tg_str n ++ w1 ++ tg_str ty ++ w1' ++ lit "(" ++ sp ++ lit ")" ++ w2 ++ lit "{" ++ se ++ lit "}" ++ w3).
End Write.
Definition er_param (p : aparam) : aparam := (er_tag (fst p), option_map er_tag (snd p)).
