(** Where the words of a line lie. *)
From Coq Require Import String List ZArith NArith Bool Arith Permutation Sorted.
From Verif Require Import Model.Base Model.Utf Model.Ast Model.Parse Model.Highlight.
Import ListNotations.
Set Implicit Arguments.

(** The words of a tree in the order in which they are written.  Names of types count as words here. *)
Definition ty_words (o : option tag) : list leaf := match o with Some t => [(NType, t)] | None => [] end.
Definition op_words (o : opref) : list leaf :=
  match o with OpSingle t => [(NCommand, t)] | OpPath cs _ _ => map (fun t => (NCommand, t)) cs end.
Fixpoint arg_words (a : arg) : list leaf :=
  match a with
  | AIdent t => [(NIdent, t)]
  | ANum _ t => [(NNum, t)]
  | AVar t => [(NVar, t)]
  | APound _ t => [(NPound, t)]
  | AExpr e => expr_words e
  end
with term_words (t : term) : list leaf := match t with TArg a => arg_words a | TFlag t => [(NFlag, t)] end
with block_words (b : block) : list leaf :=
  match b with
  | BPrefix o ts i out => ty_words i ++ op_words o ++ ty_words out ++ flat_map term_words ts
  | BDot o l r out => arg_words l ++ [(NCommand, o)] ++ [(NIdent, r)] ++ ty_words out
  end
with expr_words (e : expr) : list leaf := match e with Expr _ bs out => flat_map block_words bs ++ ty_words out end.

Section Lex.
  Variable line : str.

  (** What is written around a word of each kind. *)
  Definition quote (q : N) : Prop := q = 34%N \/ q = 39%N.
  Definition around (ty : ntype) (pre post : str) : Prop :=
    match ty with
    | NVar => pre = lit "$" /\ post = []
    | NFlag => pre = lit "--" /\ post = [] \/ exists q, quote q /\ pre = lit "--" ++ [q] /\ post = [q]
    | NIdent => pre = [] /\ post = [] \/ exists q, quote q /\ pre = [q] /\ post = [q]
    | _ => pre = [] /\ post = []
    end.

  (** The word with what is around it stands between two positions of the line; [txt] is all of it.
      Only between quotes can a word be empty. *)
  Definition stands (lo hi : nat) (x : leaf) (txt : str) : Prop :=
    exists a pre post b, line = a ++ txt ++ b /\ txt = pre ++ tg_str (snd x) ++ post /\
      around (fst x) pre post /\ (post = [] -> tg_str (snd x) <> []) /\
      lo <= byte_len a /\ byte_len a + byte_len txt <= hi /\
      N.to_nat (tg_s (snd x)) = byte_len a + byte_len pre /\
      N.to_nat (tg_e (snd x)) = byte_len a + byte_len pre + byte_len (tg_str (snd x)).

  (** One after the other. *)
  Inductive in_order : nat -> nat -> list leaf -> Prop :=
  | in_order_nil : forall lo hi, lo <= hi -> in_order lo hi []
  | in_order_cons : forall lo m hi x txt xs, stands lo m x txt -> in_order m hi xs -> in_order lo hi (x :: xs).
End Lex.

(** No op is written as a path. *)
Definition plain_op (o : opref) : Prop := match o with OpSingle _ => True | OpPath _ _ _ => False end.
(** Every op has a name of its own: written as one, or as a path of which all but the last part is dealt with. *)
Definition named_op (o : opref) : Prop :=
  match o with OpSingle _ => True | OpPath cs i _ => S i = length cs end.

(** All ops of a tree. *)
Fixpoint arg_ops (a : arg) : list opref := match a with AExpr e => expr_ops e | _ => [] end
with term_ops (t : term) : list opref := match t with TArg a => arg_ops a | TFlag _ => [] end
with block_ops (b : block) : list opref :=
  match b with
  | BPrefix o ts _ _ => o :: flat_map term_ops ts
  | BDot o l _ _ => OpSingle o :: arg_ops l
  end
with expr_ops (e : expr) : list opref := match e with Expr _ bs _ => flat_map block_ops bs end.

(** Ordering by start. *)
Definition start_of (r : range) : nat := fst (fst r).
Definition sorts (sorter : list range -> list range) : Prop :=
  forall l, Permutation (sorter l) l /\ Sorted (fun a b => start_of a <= start_of b) (sorter l).

(** Up to the flags of the line all characters are ASCII. *)
Definition ascii_before_flags (line : str) (ls : list leaf) : Prop :=
  forall t a b, In (NFlag, t) ls -> line = a ++ b -> byte_len a <= N.to_nat (tg_s t) -> Forall (fun c => (c < 128)%N) a.

(** The words of a definition of an op. *)
Definition def_words (line : str) (d : tag * option tag * list aparam * expr) : list leaf :=
  let '(name, in_ty, ps, e) := d in
  [(NCommand, def_word line name); (NCommand, name)] ++ ty_words in_ty ++
  flat_map (fun p => (NParameter, fst p) :: ty_words (snd p)) ps ++ expr_words e.

(** What is coloured: class, position, text. *)
Fixpoint coloured (i : nat) (ps : list piece) : list (ntype * nat * str) :=
  match ps with
  | [] => []
  | (Some ty, t) :: ps => (ty, i, t) :: coloured (i + byte_len t) ps
  | (None, t) :: ps => coloured (i + byte_len t) ps
  end.
(** A word shows with the marks that belong to it; of an identifier the quotes do not. *)
Definition shows (line : str) (x : leaf) (c : ntype * nat * str) : Prop :=
  exists a pre post b, line = a ++ pre ++ tg_str (snd x) ++ post ++ b /\ around (fst x) pre post /\
    N.to_nat (tg_s (snd x)) = byte_len (a ++ pre) /\
    c = match fst x with
        | NIdent => (NIdent, byte_len (a ++ pre), tg_str (snd x))
        | ty => (ty, byte_len a, pre ++ tg_str (snd x) ++ post)
        end.
(** A line coloured well: nothing is lost or added, and the coloured pieces are the words, as they come in the line. *)
Definition coloured_well (line : str) (ls : list leaf) (ps : list piece) : Prop :=
  concat (map snd ps) = line /\
  exists ws, Permutation ws ls /\ in_order line 0 (byte_len line) ws /\ Forall2 (shows line) ws (coloured 0 ps).

(** What stands at a position: the one word over it, if there is one. *)
Definition over (pos : nat) (x : leaf) : Prop := N.to_nat (tg_s (snd x)) <= pos < N.to_nat (tg_e (snd x)).
Definition at_position (ls : list leaf) (pos : nat) (r : option leaf) : Prop :=
  match r with
  | Some x => In x ls /\ over pos x /\ forall y, In y ls -> over pos y -> y = x
  | None => forall y, In y ls -> ~ over pos y
  end.

(** The blocks of an expression, those in its arguments included. *)
Fixpoint arg_blocks (a : arg) : list block := match a with AExpr e => expr_blocks e | _ => [] end
with term_blocks (t : term) : list block := match t with TArg a => arg_blocks a | TFlag _ => [] end
with inner_blocks (b : block) : list block :=
  match b with BPrefix _ ts _ _ => flat_map term_blocks ts | BDot _ l _ _ => arg_blocks l end
with expr_blocks (e : expr) : list block := match e with Expr _ bs _ => bs ++ flat_map inner_blocks bs end.
(** The parts of a block with what is written before the first: the colon of a type, the dollar of a variable on the left of a dot. *)
Definition tag_part (t : tag) : nat * nat := (N.to_nat (tg_s t), N.to_nat (tg_e t)).
Definition marked_part (t : tag) : nat * nat := (N.to_nat (tg_s t) - 1, N.to_nat (tg_e t)).
Definition block_parts (b : block) : list (nat * nat) :=
  match b with
  | BPrefix o ts i out =>
      match i with Some t => [marked_part t] | None => [] end ++ match o with OpSingle t => [tag_part t] | OpPath cs _ _ => map tag_part cs end ++
      match out with Some t => [tag_part t] | None => [] end ++ map (fun t => match t with TArg a => tag_part (arg_tag a) | TFlag t => tag_part t end) ts
  | BDot o l r out =>
      match l with AVar t => marked_part t | _ => tag_part (arg_tag l) end :: tag_part o :: tag_part r :: match out with Some t => [tag_part t] | None => [] end
  end.
(** The least range all of them are in. *)
Definition spans (r : nat * nat) (ps : list (nat * nat)) : Prop :=
  Forall (fun p => fst r <= fst p /\ snd p <= snd r) ps /\ In (fst r) (map fst ps) /\ In (snd r) (map snd ps).
