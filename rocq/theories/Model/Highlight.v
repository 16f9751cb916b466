(** The leaves of a parsed line, what stands at a position, and colouring a line. *)
From Coq Require Import String List ZArith NArith Bool Arith.
From Verif Require Import Model.Base Model.Utf Model.Ast Model.Parse.
Import ListNotations.
Set Implicit Arguments.

(** ogma-ls/completion.rs:234-258 [NodeType], 225-231 [Node].  Fields, variants and type parameters are left out, since
    definitions of types are. *)
Inductive ntype := NCommand | NType | NIdent | NNum | NVar | NPound | NFlag | NParameter.
Definition leaf : Type := (ntype * tag)%type.

(** completion.rs:457-468 [append_leaves] of an argument, 433-442 of a term, 415-421 of a block, 397-402 of an expression.
    [Block::op] panics on a path. *)
Fixpoint leaves_arg (a : arg) : res (list leaf) :=
  match a with
  | AIdent t => Ok [(NIdent, t)]
  | ANum _ t => Ok [(NNum, t)]
  | AVar t => Ok [(NVar, t)]
  | APound _ t => Ok [(NPound, t)]
  | AExpr e => leaves_expr e
  end
with leaves_term (t : term) : res (list leaf) :=
  match t with TArg a => leaves_arg a | TFlag t => Ok [(NFlag, t)] end
with leaves_block (b : block) : res (list leaf) :=
  let? o := blk_op b in
  match b with
  | BPrefix _ ts _ _ =>
      let? l := (fix go (ts : list term) : res (list leaf) :=
                   match ts with [] => Ok [] | t :: ts => let? a := leaves_term t in let? b := go ts in Ok (a ++ b) end) ts in
      Ok ((NCommand, o) :: l)
  | BDot _ lhs rhs _ => let? l := leaves_arg lhs in Ok ((NCommand, o) :: l ++ [(NIdent, rhs)])
  end
with leaves_expr (e : expr) : res (list leaf) :=
  match e with
  | Expr _ bs _ =>
      (fix go (bs : list block) : res (list leaf) :=
         match bs with [] => Ok [] | b :: bs => let? a := leaves_block b in let? l := go bs in Ok (a ++ l) end) bs
  end.

(** completion.rs:313-335 [append_leaves] of a definition of an op, 476-479 of a parameter.  The word before the name is the
    [def]; only the range of its tag is used. *)
Definition def_word (line : str) (name : tag) : tag := mk line 0 (N.to_nat (tg_s name) - 1).
Definition leaves_def (line : str) (d : tag * option tag * list aparam * expr) : res (list leaf) :=
  let '(name, in_ty, ps, e) := d in
  let? l := leaves_expr e in
  Ok ([(NCommand, def_word line name); (NCommand, name)] ++ match in_ty with Some t => [(NType, t)] | None => [] end ++
      map (fun p => (NParameter, fst p)) ps ++ l).

(** ast.rs:75-77 [Tag::range], [Range::contains] of core, and completion.rs:287-293 [is_node] *)
Definition within (pos : nat) (s e : nat) : bool := Nat.leb s pos && Nat.ltb pos e.
Definition covers_pos (pos : nat) (t : tag) : bool := within pos (N.to_nat (tg_s t)) (N.to_nat (tg_e t)).
Definition is_node (t : tag) (pos : nat) (ty : ntype) : option leaf := if covers_pos pos t then Some (ty, t) else None.

(** ast.rs:539-553 [Path::tag], 574-579 [Op::tag]: the range *)
Definition op_range (o : opref) : nat * nat :=
  match o with
  | OpSingle t => (N.to_nat (tg_s t), N.to_nat (tg_e t))
  | OpPath cs i rooted =>
      match rev cs with
      | [] => (0, 0)
      | z :: _ =>
          if Nat.eqb (S i) (length cs) then (N.to_nat (tg_s z), N.to_nat (tg_e z))
          else (N.to_nat (tg_s (nth i cs z)) - (if rooted && Nat.eqb i 0 then 1 else 0), N.to_nat (tg_e z))
      end
  end.
(** ast.rs:299-322, 377-391 [block_tag]: the range *)
Definition block_range (b : block) : nat * nat :=
  match b with
  | BPrefix o ts i out =>
      let s := match i with Some t => N.to_nat (tg_s t) - 1 | None => fst (op_range o) end in
      let e := match out with Some t => N.to_nat (tg_e t) | None => snd (op_range o) end in
      (s, match rev ts with
          | TArg a :: _ => N.to_nat (tg_e (arg_tag a))
          | TFlag t :: _ => N.to_nat (tg_e t)
          | [] => e
          end)
  | BDot _ lhs rhs out =>
      (match lhs with AVar t => N.to_nat (tg_s t) - 1 | _ => N.to_nat (tg_s (arg_tag lhs)) end,
       match out with Some t => N.to_nat (tg_e t) | None => N.to_nat (tg_e rhs) end)
  end.

(** completion.rs:446-455, 425-431, 406-413, 389-395 [node_at_pos]; [find_map] stops at the first hit. *)
Fixpoint at_arg (pos : nat) (a : arg) : res (option leaf) :=
  match a with
  | AIdent t => Ok (is_node t pos NIdent)
  | ANum _ t => Ok (is_node t pos NNum)
  | AVar t => Ok (is_node t pos NVar)
  | APound _ t => Ok (is_node t pos NPound)
  | AExpr e => at_expr pos e
  end
with at_term (pos : nat) (t : term) : res (option leaf) :=
  match t with TArg a => at_arg pos a | TFlag t => Ok (is_node t pos NFlag) end
with at_block (pos : nat) (b : block) : res (option leaf) :=
  if within pos (fst (block_range b)) (snd (block_range b)) then
    let? o := blk_op b in
    match is_node o pos NCommand with
    | Some x => Ok (Some x)
    | None =>
        match b with
        | BPrefix _ ts _ _ =>
            (fix go (ts : list term) : res (option leaf) :=
               match ts with
               | [] => Ok None
               | t :: ts => let? a := at_term pos t in match a with Some x => Ok (Some x) | None => go ts end
               end) ts
        | BDot _ lhs rhs _ =>
            let? a := at_arg pos lhs in match a with Some x => Ok (Some x) | None => Ok (is_node rhs pos NIdent) end
        end
    end
  else Ok None
with at_expr (pos : nat) (e : expr) : res (option leaf) :=
  match e with
  | Expr t bs _ =>
      if covers_pos pos t then
        (fix go (bs : list block) : res (option leaf) :=
           match bs with
           | [] => Ok None
           | b :: bs => let? a := at_block pos b in match a with Some x => Ok (Some x) | None => go bs end
           end) bs
      else Ok None
  end.

(** completion.rs:298-311 [node_at_pos] of a definition of an op, 472-474 of a parameter *)
Fixpoint at_params (pos : nat) (ps : list aparam) : option leaf :=
  match ps with [] => None | p :: ps => match is_node (fst p) pos NParameter with Some x => Some x | None => at_params pos ps end end.
Definition at_def (line : str) (pos : nat) (d : tag * option tag * list aparam * expr) : res (option leaf) :=
  let '(name, in_ty, ps, e) := d in
  if Nat.ltb pos (N.to_nat (tg_s name)) then Ok (Some (NCommand, def_word line name))
  else match is_node name pos NCommand with
  | Some x => Ok (Some x)
  | None =>
      match (match in_ty with Some t => is_node t pos NType | None => None end) with
      | Some x => Ok (Some x)
      | None => let? a := at_expr pos e in match a with Some x => Ok (Some x) | None => Ok (at_params pos ps) end
      end
  end.

(** ogma-shell/lib.rs:503-522 the ranges that are coloured.  [line.chars().nth] is given a byte position. *)
Definition range : Type := (nat * nat * ntype)%type.
Definition adjust (line : str) (x : leaf) : range :=
  let s := N.to_nat (tg_s (snd x)) in
  let e := N.to_nat (tg_e (snd x)) in
  match fst x with
  | NVar => (s - 1, e, NVar)
  | NFlag =>
      match nth_error line (s - 1) with
      | Some c => if N.eqb c 39 || N.eqb c 34 then (s - 3, e + 1, NFlag) else (s - 2, e, NFlag)
      | None => (s - 2, e, NFlag)
      end
  | ty => (s, e, ty)
  end.

(** ogma-shell/lib.rs:527-543, 546-562: the pieces written, with the colour class of those that have one; the text of a
    node is taken from the line by its range. *)
Definition piece : Type := (option ntype * str)%type.
Fixpoint paint (line : str) (i : nat) (rs : list range) : res (list piece) :=
  match rs with
  | [] => if Nat.ltb i (byte_len line) then let? t := slice_bytes i (byte_len line) line in Ok [(None, t)] else Ok []
  | (s, e, ty) :: rs =>
      let? gap := if Nat.ltb i s then let? t := slice_bytes i s line in Ok [(None, t)] else Ok [] in
      let? t := slice_bytes s e line in
      let? rest := paint line e rs in
      Ok (gap ++ (Some ty, t) :: rest)
  end.

(** ogma-shell/lib.rs:501-544 [highlight_from_nodes]; [sorter] is [sort_unstable_by_key] with the start as key. *)
Definition highlight (sorter : list range -> list range) (line : str) (ls : list leaf) : res (list piece) :=
  paint line 0 (sorter (map (adjust line) ls)).
