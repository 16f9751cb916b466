(** The parser of expressions and definitions. *)
From Coq Require Import String List ZArith NArith Bool Arith.
From Verif Require Import Model.Base Model.Utf Model.Ast.
Import ListNotations.
Set Implicit Arguments.

(** What the parser uses of other libraries: [char::is_alphabetic], [is_alphanumeric], [is_whitespace]; the number that
    a token stands for (parse/mod.rs:752-762, [Number::from_str] and the names of infinities and nan);
    [defs.impls().contains_op]. *)
Record lang := Lang {
  alpha : N -> bool; alnum : N -> bool; white : N -> bool;
  number : str -> option Z; known : str -> bool }.

(** [IResult] of nom: a recoverable error, a failure, or the rest of the input with a value.  Messages are left out.
    [PFuel] is not an outcome of the code; see C38_stops. *)
Inductive pres (A : Type) := POk (i : str) (a : A) | PErr | PFail | PFuel.
Arguments POk {A}. Arguments PErr {A}. Arguments PFail {A}. Arguments PFuel {A}.

Definition pbind {A B} (r : pres A) (f : str -> A -> pres B) : pres B :=
  match r with POk i a => f i a | PErr => PErr | PFail => PFail | PFuel => PFuel end.
Notation "'let*' ( i , x ) ':=' r 'in' k" := (pbind r (fun i x => k))
  (at level 200, i name, x name, r at level 100, k at level 200).

(** nom 7: [cut], [opt], [char], [tag], [multispace0], [take_while1], [take_till] *)
Definition cut {A} (r : pres A) : pres A := match r with PErr => PFail | r => r end.
Definition popt {A} (i : str) (r : pres A) : pres (option A) :=
  match r with POk i a => POk i (Some a) | PErr => POk i None | PFail => PFail | PFuel => PFuel end.
Definition pchar (c : N) (i : str) : pres unit :=
  match i with x :: i => if N.eqb x c then POk i tt else PErr | [] => PErr end.
Fixpoint strip (p i : str) : option str :=
  match p, i with
  | [], _ => Some i
  | a :: p, b :: i => if N.eqb a b then strip p i else None
  | _ :: _, [] => None
  end.
Definition ptag (p i : str) : pres str := match strip p i with Some i => POk i p | None => PErr end.
Definition ms (c : N) : bool := N.eqb c 32 || N.eqb c 9 || N.eqb c 13 || N.eqb c 10.
Fixpoint skip (i : str) : str := match i with c :: i' => if ms c then skip i' else i | [] => [] end.
Fixpoint span (p : N -> bool) (i : str) : str * str :=
  match i with
  | c :: i' => if p c then let (a, b) := span p i' in (c :: a, b) else ([], i)
  | [] => ([], [])
  end.
Definition span1 (p : N -> bool) (i : str) : pres str := match span p i with ([], _) => PErr | (a, i) => POk i a end.
Definition starts (c : N) (i : str) : bool := match i with x :: _ => N.eqb x c | [] => false end.

Section Parse.
  Variable k : lang.
  Variable line : str.

  (** parse/mod.rs:35-46 [Line::create_tag]: the input is always a suffix of the line. *)
  Definition offset (i : str) : nat := byte_len line - byte_len i.
  Definition mk (s e : nat) : tag :=
    Tag (N.of_nat s) (N.of_nat e) (match slice_bytes s e line with Ok t => t | _ => [] end).
  Definition create_tag (i t : str) : tag := mk (offset i) (offset i + byte_len t).
  Definition set_start (t : tag) (s : N) : tag := mk (N.to_nat s) (N.to_nat (tg_e t)).
  Definition set_end (t : tag) (e : N) : tag := mk (N.to_nat (tg_s t)) (N.to_nat e).

  (** parse/mod.rs:264-269 [ws] *)
  Definition ws {A} (p : str -> pres A) (i : str) : pres A := let* (i, a) := p (skip i) in POk (skip i) a.

  (** parse/mod.rs:767-773 [breakon] *)
  Definition breakon (c : N) : bool := N.eqb c 124 || N.eqb c 123 || N.eqb c 125 || N.eqb c 58 || white k c.
  Definition breakon_s (i : str) : bool := match i with c :: _ => breakon c | [] => false end.
  Definition token (i : str) : pres str := span1 (fun c => negb (breakon c)) i.

  (** parse/mod.rs:524-547 [op_ident] *)
  Definition idchar (c : N) : bool := alnum k c || N.eqb c 45 || N.eqb c 95.
  Definition op_ident (i : str) : pres tag :=
    match i with
    | [] => PErr
    | c :: _ => if alpha k c then let* (j, t) := span1 idchar i in POk j (create_tag i t) else PErr
    end.

  (** parse/mod.rs:314-325 [opt_ty] *)
  Definition opt_ty (i : str) : pres (option tag) :=
    popt i (let* (i, u) := pchar 58 i in cut (op_ident i)).

  (** parse/mod.rs:503-522 [spec_op] *)
  Definition specials : list str :=
    [lit "\"; lit "+"; lit "-"; lit "*"; [215%N]; lit "/"; [247%N]; lit "="; lit "!="; lit ">="; lit "<="; lit ">"; lit "<"; lit "."].
  Fixpoint alt_tags (l : list str) (i : str) : pres str :=
    match l with [] => PErr | p :: l => match ptag p i with PErr => alt_tags l i | r => r end end.
  Definition spec_op (i : str) : pres str := alt_tags specials i.

  (** parse/mod.rs:465-482 [tmp_op_parser] *)
  Fixpoint chain (fuel : nat) (i : str) (ident : tag) : str * tag :=
    match fuel with
    | 0 => (i, ident)
    | S fuel =>
        match (let* (j, u) := ptag (lit "::") i in op_ident j) with
        | POk j t => chain fuel j t
        | _ => (i, ident)
        end
    end.
  Definition tmp_op (i : str) : pres tag :=
    let* (j, ident) := op_ident i in
    let (j, last) := chain (length j) j ident in
    POk j (set_start last (tg_s ident)).

  (** parse/mod.rs:432-463 [path], with [separated_list1] of nom *)
  Fixpoint sep_list (fuel : nat) (i : str) (acc : list tag) : str * list tag :=
    match fuel with
    | 0 => (i, acc)
    | S fuel =>
        match (let* (j, u) := ptag (lit "/") i in tmp_op j) with
        | POk j t => sep_list fuel j (acc ++ [t])
        | _ => (i, acc)
        end
    end.
  Definition path (i : str) : pres (list tag * bool) :=
    let (i, rooted) := match strip (lit "/") i with Some j => (j, true) | None => (i, false) end in
    let* (i, t) := tmp_op i in
    let (i, cs) := sep_list (length i) i [t] in
    if starts 47 i then PErr else POk i (cs, rooted).

  (** parse/mod.rs:484-501 [op] *)
  Definition op (i : str) : pres opref :=
    match spec_op i with
    | POk j t => POk j (OpSingle (create_tag i t))
    | _ =>
        let* (i, p) := path i in
        POk i (match fst p with [t] => OpSingle t | cs => OpPath cs 0 (snd p) end)
    end.

  (** parse/mod.rs:549-557 [known_op] *)
  Definition known_op (i : str) : bool :=
    match op i with
    | POk _ o => match is_op o with Ok (Some t) => known k (tg_str t) | _ => false end
    | _ => false
    end.

  (** parse/mod.rs:727-729 [var], 735-763 [ident], 731-733 [flag] *)
  Definition quoted (q : N) (i : str) : pres str :=
    let* (i, u) := pchar q i in
    let (t, i) := span (fun c => negb (N.eqb c q)) i in
    let* (i, u) := pchar q i in
    POk i t.
  Definition ident (i : str) : pres tag :=
    if starts 58 i then PFail
    else if starts 34 i then let* (j, t) := quoted 34 i in POk j (create_tag (tl i) t)
    else if starts 39 i then let* (j, t) := quoted 39 i in POk j (create_tag (tl i) t)
    else let* (j, t) := token i in POk j (create_tag i t).
  Definition var (i : str) : pres tag := let* (i, u) := pchar 36 i in op_ident i.
  Definition flag (i : str) : pres tag := let* (i, u) := ptag (lit "--") i in ident i.

  (** parse/mod.rs:765-781 [num] *)
  Definition num (i : str) : pres (Z * tag) :=
    let* (j, t) := token i in match number k t with Some n => POk j (n, create_tag i t) | None => PErr end.

  (** ast.rs:377-391 [DotOperatorBlock::block_tag] *)
  Definition dot_tag (lhs : arg) (rhs : tag) (out : option tag) : tag :=
    let t := arg_tag lhs in
    let s := match lhs with AVar _ => (tg_s t - 1)%N | _ => tg_s t end in
    mk (N.to_nat s) (N.to_nat (match out with Some o => tg_e o | None => tg_e rhs end)).

  (** parse/mod.rs:606-644 [infix_rhs_ident], [dot_infixed], 577-604 [maybe_infix] *)
  Definition rhs_ident (i : str) : pres tag := if starts 39 i || starts 34 i then ident i else op_ident i.
  Fixpoint infix (fuel : nat) (i : str) (lhs : arg) : pres arg :=
    if starts 46 i then
      match fuel with
      | 0 => PFuel
      | S fuel =>
          let* (j, dot) := ptag (lit ".") i in
          let* (j, rhs) := cut (rhs_ident j) in
          let* (j, out) := opt_ty j in
          infix fuel j (AExpr (Expr (dot_tag lhs rhs out) [BDot (create_tag i dot) lhs rhs out] None))
      end
    else POk i lhs.

  (** parse/mod.rs:655-669: braces with nothing in between *)
  Definition empty_braces (i : str) : bool := match i with _ :: i => starts 125 (skip i) | [] => false end.

  (** parse/mod.rs:363-407 [expr], 409-429 [block], 559-575 [term], 646-725 [arg]; [terms] is [many0] of nom *)
  Fixpoint p_expr (fuel : nat) (input : str) : pres expr :=
    match fuel with
    | 0 => PFuel
    | S fuel =>
        let* (i, b) := ws (p_block fuel) input in
        let* (i, bs) := p_pipes fuel i [b] in
        let fin i bs := POk i (Expr (set_end (create_tag input input) (N.of_nat (offset i))) bs None) in
        match ws (p_block fuel) i with
        | POk j b => fin j (bs ++ [b])
        | PFuel => PFuel
        | _ => fin i bs
        end
    end
  with p_pipes (fuel : nat) (i : str) (bs : list block) : pres (list block) :=
    match fuel with
    | 0 => PFuel
    | S fuel =>
        if starts 124 i then let* (i, b) := ws (p_block fuel) (tl i) in p_pipes fuel i (bs ++ [b])
        else POk i bs
    end
  with p_block (fuel : nat) (i : str) : pres block :=
    match fuel with
    | 0 => PFuel
    | S fuel =>
        let* (i, in_ty) := opt_ty i in
        let* (i, o) := op (skip i) in
        let* (i, out_ty) := opt_ty i in
        let* (i, ts) := p_terms fuel i [] in
        POk i (BPrefix o ts in_ty out_ty)
    end
  with p_terms (fuel : nat) (i : str) (ts : list term) : pres (list term) :=
    match fuel with
    | 0 => PFuel
    | S fuel =>
        match ws (p_term fuel) i with
        | POk j t => if Nat.eqb (length j) (length i) then PErr else p_terms fuel j (ts ++ [t])
        | PErr => POk i ts
        | PFail => PFail
        | PFuel => PFuel
        end
    end
  with p_term (fuel : nat) (i : str) : pres term :=
    match fuel with
    | 0 => PFuel
    | S fuel =>
        match strip (lit "--") i with
        | Some _ => let* (i, t) := flag i in POk i (TFlag t)
        | None =>
            let* (i, a) := p_arg fuel i in
            let* (i, a) := infix (length i) i a in
            POk i (TArg a)
        end
    end
  with p_arg (fuel : nat) (i : str) : pres arg :=
    match fuel with
    | 0 => PFuel
    | S fuel =>
        if starts 123 i then
          if empty_braces i then PFail
          else
            let start := tg_s (create_tag i i) in
            let* (j, e) := cut (let* (j, u) := pchar 123 i in
                                let* (j, e) := ws (p_expr fuel) j in
                                let* (j, u) := pchar 125 j in POk j e) in
            let* (j, out) := opt_ty j in
            let t := set_start (ex_tag e) start in
            let t := set_end t (tg_e t + 1) in
            let t := match out with Some o => set_end t (tg_e o) | None => t end in
            POk j (AExpr (Expr t (ex_blocks e) out))
        else if starts 58 i then PFail
        else if breakon_s i then PErr
        else if starts 36 i then let* (j, t) := var i in POk j (AVar t)
        else if starts 35 i then
          let* (j, c) := cut (op_ident (tl i)) in
          match byte_len (tg_str c), tg_str c with
          | 1, ch :: _ => POk j (APound ch (set_start c (tg_s c - 1)))
          | _, _ => PFail
          end
        else match num i with
        | POk j nt => POk j (ANum (fst nt) (snd nt))
        | _ =>
            if known_op i then
              let t := create_tag i i in
              let* (j, b) := ws (p_block fuel) i in
              POk j (AExpr (Expr (set_end t (N.of_nat (offset j))) [b] None))
            else let* (j, t) := ident i in POk j (AIdent t)
        end
    end.

  (** ** Entry points *)

  (** [str::trim] leaves nothing *)
  Definition blank (i : str) : bool := forallb (white k) i.
  (** parse/mod.rs:327-352 [no_trailing_input] *)
  Definition no_trailing {A} (p : str -> pres A) (i : str) : pres A :=
    let* (rem, a) := p i in if blank rem then POk [] a else PFail.

  (** Enough for any input; see C38_stops. *)
  Definition enough (i : str) : nat := 4 * length i + 4.
  Definition expr_p (i : str) : pres expr := p_expr (enough i) i.

  (** parse/mod.rs:860-871 [def_param], 837-859 [def_params] *)
  Definition aparam : Type := (tag * option tag)%type.
  Definition def_param (i : str) : pres aparam :=
    let* (i, n) := op_ident i in
    if starts 58 i then let* (i, t) := op_ident (tl i) in POk i (n, Some t) else POk i (n, None).
  Fixpoint many_params (fuel : nat) (i : str) (ps : list aparam) : pres (list aparam) :=
    match fuel with
    | 0 => PFuel
    | S fuel =>
        match ws def_param i with
        | POk j p => if Nat.eqb (length j) (length i) then PErr else many_params fuel j (ps ++ [p])
        | PErr => POk i ps
        | PFail => PFail
        | PFuel => PFuel
        end
    end.
  Fixpoint repeats (seen : list str) (ps : list aparam) : bool :=
    match ps with
    | [] => false
    | (n, _) :: ps => if existsb (str_eqb (tg_str n)) seen then true else repeats (tg_str n :: seen) ps
    end.
  Definition def_params (i : str) : pres (list aparam) :=
    let* (i, u) := pchar 40 i in
    let* (i, ps) := many_params (S (length i)) i [] in
    let* (i, u) := pchar 41 i in
    if repeats [] ps then PErr else POk i ps.

  (** parse/mod.rs:821-835 [def_op], 789-819 [def_impl_inner]: name, input type, parameters, body *)
  Definition def_op (i : str) : pres tag :=
    let* (i, o) := ws (fun i => let* (i, u) := ptag (lit "def ") i in op i) i in
    match is_op o with Ok (Some t) => POk i t | _ => PFail end.
  Definition def_impl (i : str) : pres (tag * option tag * list aparam * expr) :=
    let* (i, name) := def_op i in
    let* (i, in_ty) := ws (fun i => popt i (op_ident i)) i in
    let* (i, ps) := def_params i in
    let* (i, e) := no_trailing (ws (fun i => let* (i, u) := pchar 123 i in
                                             let* (i, e) := ws expr_p i in
                                             let* (i, u) := pchar 125 i in POk i e)) i in
    POk i (name, in_ty, ps, e).
End Parse.

(** parse/mod.rs:81-98 [expression], 100-115 [definition_impl] *)
Definition expression (k : lang) (line : str) : pres expr := no_trailing k (expr_p k line) line.
Definition definition_impl (k : lang) (line : str) : pres (tag * option tag * list aparam * expr) := def_impl k line line.
