(** The parser with what it expects where it fails, and the completions at the end of a line. *)
From Coq Require Import String List ZArith NArith Bool Arith.
From Verif Require Import Model.Base Model.Utf Model.Ast Model.Parse Model.Highlight Model.Complete.
Import ListNotations.
Set Implicit Arguments.

(** [IResult] with the [expecting] of [ParsingError] (parse/mod.rs:160-164); the traces are left out.  The rest is as in Parse.v. *)
Inductive xres (A : Type) := XOk (i : str) (a : A) | XErr (x : expecting) | XFail (x : expecting) | XFuel.
Arguments XOk {A}. Arguments XErr {A}. Arguments XFail {A}. Arguments XFuel {A}.
Definition xbind {A B} (r : xres A) (f : str -> A -> xres B) : xres B :=
  match r with XOk i a => f i a | XErr x => XErr x | XFail x => XFail x | XFuel => XFuel end.
Notation "'let+' ( i , x ) ':=' r 'in' k" := (xbind r (fun i x => k))
  (at level 200, i name, x name, r at level 100, k at level 200).

(** Parsers whose errors come from nom or are made with [Expecting::NONE]: parse/mod.rs:186-200 [from_error_kind], [from_char], 524-541,
    727-750 *)
Definition bare {A} (r : pres A) : xres A :=
  match r with POk i a => XOk i a | PErr => XErr XNone | PFail => XFail XNone | PFuel => XFuel end.
(** parse/mod.rs:286-304 [exp] *)
Definition exp {A} (e : expecting) (r : xres A) : xres A :=
  match r with XErr XNone => XErr e | XFail XNone => XFail e | r => r end.
(** nom: [cut], [opt] *)
Definition xcut {A} (r : xres A) : xres A := match r with XErr x => XFail x | r => r end.
Definition xopt {A} (i : str) (r : xres A) : xres (option A) :=
  match r with XOk i a => XOk i (Some a) | XErr _ => XOk i None | XFail x => XFail x | XFuel => XFuel end.

Section Parse.
  Variable k : lang.
  Variable line : str.

  (** parse/mod.rs:277-283 [ws] *)
  Definition x_ws {A} (p : str -> xres A) (i : str) : xres A := let+ (i, a) := p (skip i) in XOk (skip i) a.
  (** parse/mod.rs:325-335 [opt_ty] *)
  Definition x_opt_ty (i : str) : xres (option tag) :=
    xopt i (let+ (i, u) := bare (pchar 58 i) in exp XType (xcut (bare (op_ident k line i)))).
  (** parse/mod.rs:432-463 [path] *)
  Definition x_path (i : str) : xres (list tag * bool) :=
    let (i, rooted) := match strip (lit "/") i with Some j => (j, true) | None => (i, false) end in
    let+ (i, t) := bare (tmp_op k line i) in
    let (i, cs) := sep_list k line (length i) i [t] in
    if starts 47 i then XErr (match tl i with [] => XPath | _ => XNone end) else XOk i (cs, rooted).
  (** parse/mod.rs:484-501 [op] *)
  Definition x_op (i : str) : xres opref :=
    match spec_op i with
    | POk j t => XOk j (OpSingle (create_tag line i t))
    | _ =>
        let+ (i, p) := x_path i in
        XOk i (match fst p with [t] => OpSingle t | cs => OpPath cs 0 (snd p) end)
    end.
  (** parse/mod.rs:577-644 [maybe_infix], [dot_infixed] *)
  Fixpoint x_infix (fuel : nat) (i : str) (lhs : arg) : xres arg :=
    if starts 46 i then
      match fuel with
      | 0 => XFuel
      | S fuel =>
          let+ (j, dot) := bare (ptag (lit ".") i) in
          let+ (j, rhs) := xcut (bare (rhs_ident k line j)) in
          let+ (j, out) := x_opt_ty j in
          x_infix fuel j (AExpr (Expr (dot_tag line lhs rhs out) [BDot (create_tag line i dot) lhs rhs out] None))
      end
    else XOk i lhs.

  (** parse/mod.rs:363-407 [expr], 409-429 [block], 559-575 [term], 646-725 [arg] *)
  Fixpoint x_expr (fuel : nat) (input : str) : xres expr :=
    match fuel with
    | 0 => XFuel
    | S fuel =>
        let+ (i, b) := x_ws (x_block fuel) input in
        let+ (i, bs) := x_pipes fuel i [b] in
        let fin i bs := XOk i (Expr (set_end line (create_tag line input input) (N.of_nat (offset line i))) bs None) in
        match x_ws (x_block fuel) i with
        | XOk j b => fin j (bs ++ [b])
        | XFuel => XFuel
        | _ => fin i bs
        end
    end
  with x_pipes (fuel : nat) (i : str) (bs : list block) : xres (list block) :=
    match fuel with
    | 0 => XFuel
    | S fuel =>
        if starts 124 i then let+ (i, b) := x_ws (x_block fuel) (tl i) in x_pipes fuel i (bs ++ [b])
        else XOk i bs
    end
  with x_block (fuel : nat) (i : str) : xres block :=
    match fuel with
    | 0 => XFuel
    | S fuel =>
        let+ (i, in_ty) := x_opt_ty i in
        let+ (i, o) := exp XImpl (x_op (skip i)) in
        let+ (i, out_ty) := x_opt_ty i in
        let+ (i, ts) := x_terms fuel i [] in
        XOk i (BPrefix o ts in_ty out_ty)
    end
  with x_terms (fuel : nat) (i : str) (ts : list term) : xres (list term) :=
    match fuel with
    | 0 => XFuel
    | S fuel =>
        match x_ws (x_term fuel) i with
        | XOk j t => if Nat.eqb (length j) (length i) then XErr XNone else x_terms fuel j (ts ++ [t])
        | XErr _ => XOk i ts
        | XFail x => XFail x
        | XFuel => XFuel
        end
    end
  with x_term (fuel : nat) (i : str) : xres term :=
    match fuel with
    | 0 => XFuel
    | S fuel =>
        match strip (lit "--") i with
        | Some _ => let+ (i, t) := bare (flag k line i) in XOk i (TFlag t)
        | None =>
            let+ (i, a) := x_arg fuel i in
            let+ (i, a) := x_infix (length i) i a in
            XOk i (TArg a)
        end
    end
  with x_arg (fuel : nat) (i : str) : xres arg :=
    match fuel with
    | 0 => XFuel
    | S fuel =>
        if starts 123 i then
          if empty_braces i then XFail XImpl
          else
            let start := tg_s (create_tag line i i) in
            let+ (j, e) := xcut (let+ (j, u) := bare (pchar 123 i) in
                                 let+ (j, e) := x_ws (x_expr fuel) j in
                                 let+ (j, u) := exp XTerm (bare (pchar 125 j)) in XOk j e) in
            let+ (j, out) := x_opt_ty j in
            let t := set_start line (ex_tag e) start in
            let t := set_end line t (tg_e t + 1) in
            let t := match out with Some o => set_end line t (tg_e o) | None => t end in
            XOk j (AExpr (Expr t (ex_blocks e) out))
        else if starts 58 i then XFail XTerm
        else if breakon_s k i then XErr XNone
        else if starts 36 i then let+ (j, t) := bare (var k line i) in XOk j (AVar t)
        else if starts 35 i then
          let+ (j, c) := xcut (exp XSpec (bare (op_ident k line (tl i)))) in
          match byte_len (tg_str c), tg_str c with
          | 1, ch :: _ => XOk j (APound ch (set_start line c (tg_s c - 1)))
          | _, _ => XFail XSpec
          end
        else match num k line i with
        | POk j nt => XOk j (ANum (fst nt) (snd nt))
        | _ =>
            if known_op k line i then
              let t := create_tag line i i in
              let+ (j, b) := x_ws (x_block fuel) i in
              XOk j (AExpr (Expr (set_end line t (N.of_nat (offset line j))) [b] None))
            else let+ (j, t) := bare (ident k line i) in XOk j (AIdent t)
        end
    end.

  (** parse/mod.rs:337-362 [no_trailing_input] *)
  Definition x_no_trailing {A} (p : str -> xres A) (i : str) : xres A :=
    let+ (rem, a) := p i in if blank k rem then XOk [] a else XFail XNone.
  Definition x_expr_p (i : str) : xres expr := x_expr (enough i) i.

  (** parse/mod.rs:821-835 [def_op], 785-819 [def_impl_inner] *)
  Definition x_def_op (i : str) : xres tag :=
    let+ (i, o) := x_ws (fun i => let+ (i, u) := bare (ptag (lit "def ") i) in x_op i) i in
    match is_op o with Ok (Some t) => XOk i t | _ => XFail XNone end.
  Definition x_def_impl (i : str) : xres (tag * option tag * list aparam * expr) :=
    let+ (i, name) := x_def_op i in
    let+ (i, in_ty) := bare (ws (fun i => popt i (op_ident k line i)) i) in
    let+ (i, ps) := exp (match in_ty with Some _ => XNone | None => XType end) (bare (def_params k line i)) in
    let+ (i, e) := x_no_trailing (x_ws (fun i => let+ (i, u) := bare (pchar 123 i) in
                                                 let+ (i, e) := x_ws x_expr_p i in
                                                 let+ (i, u) := bare (pchar 125 i) in XOk i e)) i in
    XOk i (name, in_ty, ps, e).
End Parse.

(** parse/mod.rs:81-115 [expression], [definition_impl] *)
Definition x_expression (k : lang) (line : str) : xres expr := x_no_trailing k (x_expr_p k line) line.
Definition x_definition (k : lang) (line : str) : xres (tag * option tag * list aparam * expr) := x_def_impl k line line.

(** ogma-ls/completion.rs:47-52 [get], for expressions and definitions of ops (parse/mod.rs:68-79 [parse]) *)
Definition get (k : lang) is_dir read_dir (impls types : list str) (line : str) (wd : option (list str)) : res (option (list def)) :=
  let done (node : res (option leaf)) := let? n := node in complete_completions is_dir read_dir impls types line wd (option_map fst n) in
  let pos := byte_len line - 1 in
  match strip (lit "def ") line with
  | Some _ =>
      match x_definition k line with
      | XOk _ d => done (at_def line pos d)
      | XErr x | XFail x => incomplete_completions is_dir read_dir impls types line wd x
      | XFuel => Panic
      end
  | None =>
      match x_expression k line with
      | XOk _ e => done (at_expr pos e)
      | XErr x | XFail x => incomplete_completions is_dir read_dir impls types line wd x
      | XFuel => Panic
      end
  end.
