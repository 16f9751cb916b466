(** What the intrinsics of ogma do at compile time.  Models the parts of ogma/src/lang/impls/intrinsics/*.rs that come before the closure
    which is handed to [eval], [eval_o] (the closures are the steps of Table.v, Rows.v, ..., and Typed.v), typedef_init of
    ogma/src/lang/impls/mod.rs:366-390, and the tables of names (the [add!] of each file).

    Each is the tree of the calls it makes on its block (ArgApi.v).  The texts of errors and help are left out.  [grp-by], [sort-by] and
    [cmp], [eq] on tuples compile some code of their own (eng/eval.rs [CodeInjector]); what that returns is a parameter. *)
From Coq Require Import String List NArith Bool Arith.
From Verif Require Import Model.Base Model.Value Model.Ast Model.Registry Model.AstGraph Model.Tuple Model.Get Model.TyBuild Model.Compile Model.ArgApi.
From Verif Require Model.TyGraph Model.Locals.
Import ListNotations.

Inductive op :=
| OAddNum | OAddStr | OAddTab | OMul | OSub | ODiv | OCeil | OFloor | OIsFinite | ORoot
| OCmpNil | OCmpBool | OCmpNum | OCmpStr | OCmpOrd | OCmp | OEqNil | OEqBool | OEqNum | OEqStr | OEqOrd | OEq | OMax | OMin
| OBenchmark | OTypify
| OLsTab | OLs | OOpen | OSave
| OAnd | OIf | ONot | OOr
| OAppend | OAppendRow | ODedupStr | ODedupTab | OFilterStr | OFilterTab | OFold | OFoldWhile | OGrp | OGrpBy | OMap | OPick | ORen | ORenWith
| ORevStr | ORevTab | OSkipStr | OSkipTab | OSort | OSortBy | OTakeStr | OTakeTab
| OGetRow | OGet | ODot | OIn | OLenStr | OLenTab | OLet | ONthStr | ONthTab | ORand | ORange | OTable
| OToStrBool | OToStrNum | OToStrStr | OToStr | OTuple
| OInit (d : tydef) (variant : nat).

(** What the closure of an intrinsic has at hand: its arguments, the variables it sets, the flags (or names of columns) that make a
    difference, a type and the index of a field. *)
Record code := Code { cd_op : op; cd_opts : list (option str); cd_args : list argument; cd_vars : list (ty * option nat);
  cd_ty : option tkey; cd_field : option nat }.
Notation prog := (prog code).

(** arithmetic.rs:4-22, cmp.rs:4-23, diagnostics.rs:4-9, io.rs:5-13, logic.rs:3-10, morphism.rs:4-36, pipeline.rs:4-38, in the order of
    intrinsics/mod.rs:51-59; [IBuiltin n] is the [n]th of these.  The last of [*], [/] are [U+00D7], [U+00F7]. *)
Definition intrinsics : list (str * option ty * op) :=
  let on (t : ty) (x : string) (o : op) := (lit x, Some t, o) in
  let any (x : string) (o : op) := (lit x, None, o) in
  [on TNum "+" OAddNum; on TStr "+" OAddStr; on TTab "+" OAddTab; on TNum "*" OMul; ([215%N], Some TNum, OMul); on TNum "-" OSub;
   on TNum "/" ODiv; ([247%N], Some TNum, ODiv); on TNum "ceil" OCeil; on TNum "floor" OFloor; on TNum "is-finite" OIsFinite; on TNum "root" ORoot;
   on TNil "cmp" OCmpNil; on TBool "cmp" OCmpBool; on TNum "cmp" OCmpNum; on TStr "cmp" OCmpStr; on TOrd "cmp" OCmpOrd; any "cmp" OCmp;
   on TNil "eq" OEqNil; on TBool "eq" OEqBool; on TNum "eq" OEqNum; on TStr "eq" OEqStr; on TOrd "eq" OEqOrd; any "eq" OEq;
   any "max" OMax; any "min" OMin; any "benchmark" OBenchmark; any "typify" OTypify;
   on TTab "ls" OLsTab; any "ls" OLs; any "open" OOpen; any "save" OSave;
   any "and" OAnd; any "if" OIf; on TBool "not" ONot; any "or" OOr;
   on TTab "append" OAppend; on TTab "append-row" OAppendRow; on TStr "dedup" ODedupStr; on TTab "dedup" ODedupTab;
   on TStr "filter" OFilterStr; on TTab "filter" OFilterTab; on TTab "fold" OFold; on TTab "fold-while" OFoldWhile;
   on TTab "grp" OGrp; on TTab "grp-by" OGrpBy; on TTab "map" OMap; on TTab "pick" OPick; on TTab "ren" ORen; on TTab "ren-with" ORenWith;
   on TStr "rev" ORevStr; on TTab "rev" ORevTab; on TStr "skip" OSkipStr; on TTab "skip" OSkipTab; on TTab "sort" OSort;
   on TTab "sort-by" OSortBy; on TStr "take" OTakeStr; on TTab "take" OTakeTab;
   on TTabRow "get" OGetRow; any "get" OGet; any "." ODot; any "\" OIn; on TStr "len" OLenStr; on TTab "len" OLenTab; any "let" OLet;
   on TStr "nth" ONthStr; on TTab "nth" ONthTab; any "rand" ORand; any "range" ORange; any "Table" OTable;
   on TBool "to-str" OToStrBool; on TNum "to-str" OToStrNum; on TStr "to-str" OToStrStr; any "to-str" OToStr; any "Tuple" OTuple]%string.
Definition op_of (f : intr) : option op :=
  match f with
  | IBuiltin n => option_map snd (nth_error intrinsics n)
  | IInit d v => Some (OInit d v)
  end.

(** common/err.rs: [wrong_op_input_type] 603-617, [eval] 398-411, [type_not_found] 580-593, [field_not_found] 677-690,
    [unknown_blk_output_type], [unexp_code_injection_output_ty]; pipeline.rs:805-814; intrinsics/mod.rs:365-376 *)
Definition err_wrong : cerr := CErr true false 920.
Definition err_arms : cerr := CErr false false 921.
Definition err_no_type : cerr := CErr true false 922.
Definition err_no_field : cerr := CErr true false 923.
Definition err_blk_out : cerr := CErr false false 924.
Definition err_format : cerr := CErr true false 925.
Definition err_inject_out : cerr := CErr false false 926.
Definition err_binary_out : cerr := CErr false false 927.

(** Code that is compiled for the sake of an intrinsic: [cmp $rhs] (mod.rs:352); what cmp.rs:203-237 and 428-440 write for tuples of so
    many fields. *)
Inductive injected := InjCmp | InjTupleCmp (els : nat) | InjTupleEq (els : nat).

Definition KOrd : tkey := key_of TOrd.
Definition ok {X} (k : X -> prog) (r : X + cerr) : prog := match r with inl x => k x | inr e => PFail code e end.
(** [blk.next_arg()?.supplied(i)?.returns(o)?.concrete()?] *)
Definition arg (i : option tkey) (o : tkey) (k : argument -> prog) : prog :=
  PNext (ok (fun b => PSupplied b i (ok (fun b => PReturns b o (ok (fun b => PConcrete b (ok k))))))).
(** [blk.next_arg()?.supplied(i)?.concrete()?] *)
Definition any_arg (i : option tkey) (k : argument -> prog) : prog :=
  PNext (ok (fun b => PSupplied b i (ok (fun b => PConcrete b (ok k))))).
(** the next [n] of them *)
Fixpoint args (n : nat) (i : option tkey) (o : tkey) (acc : list argument) (k : list argument -> prog) : prog :=
  match n with 0 => k acc | S n => arg i o (fun a => args n i o (acc ++ [a]) k) end.
Fixpoint any_args (n : nat) (i : option tkey) (acc : list argument) (k : list argument -> prog) : prog :=
  match n with 0 => k acc | S n => any_arg i (fun a => any_args n i (acc ++ [a]) k) end.

Section Ops.
Variable g : graph.
(** a type, given what it is compared by *)
Variable rep : tkey -> ty.
(** the types there are, by name *)
Variable types : str -> option ty.
(** whether the numfmt crate makes something of a format *)
Variable format : str -> bool.
(** what injected code returns for an input of this type (its [$rhs] is of the same type) *)
Variable inject : injected -> tkey -> tkey + cerr.
(** [in_ty], and how many arguments there are *)
Variables (tin : tkey) (len : nat).

Definition plain (o : op) (l : list argument) : code := Code o [] l [] None None.
(** blk.rs:42-46 *)
Definition assert_input (t : tkey) (k : prog) : prog := if tkey_eqb tin t then k else PFail code err_wrong.
(** mod.rs:72-120 *)
Definition constrained (o : op) (opts : list (option str)) (t : tkey) : prog :=
  assert_input t (PSays t (if len =? 0 then PFail code err_few_args else
  POblige None (args len None t [] (fun l => PEval t (Code o opts l [] None None))))).
(** mod.rs:125-168 *)
Definition agnostic (o : op) (t : tkey) : prog :=
  PSays t (if len =? 0 then PFail code err_few_args else args len None t [] (fun l => PEval t (plain o l))).
(** mod.rs:195-210 *)
Definition flag_type (k : option ty -> prog) : prog :=
  PFlag None (fun f => match f with
                       | None => k None
                       | Some f => match type_flag types (tg_str f) with Some t => k (Some t) | None => PFail code err_no_type end
                       end).
(** [blk.get_flag(x).is_some()] *)
Definition named_flag (x : string) (k : bool -> prog) : prog := PFlag (Some (lit x)) (fun f => k (match f with Some _ => true | None => false end)).
Definition opt (x : string) (b : bool) : list (option str) := if b then [Some (lit x)] else [].
(** mod.rs:253-272 *)
Definition colnames (k : list argument -> prog) : prog :=
  if len =? 0 then PFail code err_few_args else args len (Some KNil) KStr [] k.
(** mod.rs:340-376, 396-423 *)
Definition cmp_cmd (t : tkey) (k : prog) : prog :=
  match inject InjCmp t with inr e => PFail code e | inl u => if tkey_eqb u KOrd then k else PFail code err_binary_out end.
(** arg.rs:360-381; the text of a literal string is its own, but for [#n] *)
Definition text (a : argument) : str + cerr :=
  match ar_hold a with
  | HLit n t =>
      if tkey_eqb t KStr then
        match node g n with
        | Some (NIdent x) => inl (tg_str x)
        | _ => inl [10%N]
        end
      else inr err_out_ty
  | _ => inr err_variant
  end.
(** pipeline.rs:161-191 *)
Definition accessor (t : tkey) (a : argument) (k : nat -> ty -> prog) : prog :=
  match rep t with
  | TDef (TyDef _ (TProduct fs)) =>
      ok (fun x => match field_index x fs with Some (i, u) => k i u | None => PFail code err_no_field end) (text a)
  | _ => PFail code err_wrong
  end.
(** types.rs:500-502, cmp.rs:162-165 *)
Definition is_tuple (t : tkey) : bool := match t with KDef (85%N :: 95%N :: _) => true | _ => false end.
Definition elements (t : tkey) : nat := match rep t with TDef (TyDef _ (TProduct fs)) => length fs | _ => 0 end.
(** cmp.rs:157-200, 382-425 *)
Definition tuple_op (o : op) (code_for : nat -> injected) (out : tkey) : prog :=
  PSays out (if is_tuple tin then
    arg None tin (fun a =>
    match inject (code_for (elements tin)) tin with
    | inr e => PFail code e
    | inl u => if tkey_eqb u out then PEval out (plain o [a]) else PFail code err_inject_out
    end)
  else PFail code err_wrong).
(** one argument, for the input, of the type of the input: cmp.rs:34-147, 241-362 *)
Definition same (o : op) (t out : tkey) : prog := assert_input t (PSays out (arg None t (fun a => PEval out (plain o [a])))).
(** so many, skipped or taken: pipeline.rs:473-481, morphism.rs:1267-1306, 1526-1565 *)
Definition counted (o : op) (t : tkey) : prog := assert_input t (PSays t (arg None KNum (fun a => PEval t (plain o [a])))).
(** no arguments *)
Definition unary (o : op) (t out : tkey) : prog := assert_input t (PSays out (PEval out (plain o []))).
(** a flag [--cols] and no arguments: pipeline.rs:332-336, morphism.rs:1232-1236 *)
Definition by_cols (o : op) (out : tkey) : prog := assert_input KTab (PSays out (named_flag "cols" (fun c => PEval out (Code o (opt "cols" c) [] [] None None)))).
(** logic.rs:74-99 *)
Fixpoint arms (n : nat) (acc : list argument) (k : list argument -> prog) : prog :=
  match n with 0 => k acc | S n => arg None KBool (fun p => any_arg None (fun e => arms n (acc ++ [p; e]) k)) end.
Fixpoint branches (l : list argument) : list argument := match l with _ :: e :: l => e :: branches l | _ => [] end.
(** pipeline.rs:404-416 *)
Fixpoint lets (n : nat) (acc : list argument) (vs : list (ty * option nat)) (k : list argument -> list (ty * option nat) -> prog) : prog :=
  match n with
  | 0 => k acc vs
  | S n => any_arg None (fun e => PNext (ok (fun b => PCreate (b_node b) (rep (ar_out e)) (ok (fun v => lets n (acc ++ [e]) (vs ++ [v]) k)))))
  end.
(** morphism.rs:1052-1066 *)
Fixpoint renames (n : nat) (acc : list argument) (k : list argument -> prog) : prog :=
  match n with
  | 0 => k acc
  | S n => PNext (ok (fun b => PSupplied b (Some KNil) (ok (fun b =>
           PReturns b (match return_ty b with Some KNum => KNum | _ => KStr end) (ok (fun b => PConcrete b (ok (fun h =>
           arg (Some KNil) KStr (fun a => renames n (acc ++ [h; a]) k)))))))))
  end.
(** morphism.rs:69-75 *)
Fixpoint appends (n : nat) (acc : list argument) (cols : list (option str)) (k : list argument -> list (option str) -> prog) : prog :=
  match n with
  | 0 => k acc cols
  | S n => any_arg (Some KTabRow) (fun a => PFlag None (fun f => appends n (acc ++ [a]) (cols ++ [option_map tg_str f]) k))
  end.
(** mod.rs:375-380: the fields of a variant *)
Definition init_fields (d : tydef) (v : nat) : list (str * ty) :=
  match d with
  | TyDef _ (TProduct fs) => fs
  | TyDef _ (TSum vs) => match nth_error vs v with Some (_, Some fs) => fs | _ => [] end
  end.
Fixpoint inits (fs : list (str * ty)) (acc : list argument) (k : list argument -> prog) : prog :=
  match fs with [] => k acc | f :: fs => arg None (key_of (snd f)) (fun a => inits fs (acc ++ [a]) k) end.
(** blk.rs:212-222 *)
Definition inject_next (x : string) (t : ty) (k : ty * nat -> prog) : prog :=
  PPeek (fun n _ => match n with None => PFail code err_few_args | Some n => PInject n (lit x) t (ok k) end).
(** an argument for which the type that is supplied may be given by a flag: morphism.rs:400-406, 892-898, 1152-1158 *)
Definition flagged_arg (t : option ty) (o : option tkey) (k : argument -> prog) : prog :=
  let rest b := match o with
                | Some o => PReturns b o (ok (fun b => PConcrete b (ok k)))
                | None => PConcrete b (ok k)
                end in
  PNext (ok (fun b => match t with Some t => PSupplied b (Some (key_of t)) (ok rest) | None => rest b end)).
Definition some_slot (v : ty * nat) : ty * option nat := (fst v, Some (snd v)).

Definition op_prog (o : op) : prog :=
  match o with
  (* arithmetic.rs *)
  | OAddNum | OMul | OSub | ODiv | OMax | OMin => constrained o [] KNum
  | OAddStr => constrained o [] KStr
  | OAddTab => (* 110-118 *)
      named_flag "cols" (fun c => named_flag "union" (fun u =>
      if u then constrained o (opt "cols" c) KTab
      else named_flag "intersect" (fun i => constrained o (opt "cols" c ++ opt "intersect" i) KTab)))
  | OCeil | OFloor => assert_input KNum (PEval KNum (plain o []))
  | OIsFinite => assert_input KNum (PEval KBool (plain o []))
  | ORoot => assert_input KNum (arg None KNum (fun a => PEval KNum (plain o [a])))
  (* cmp.rs *)
  | OCmpNil => same o KNil KOrd | OCmpBool => same o KBool KOrd | OCmpNum => same o KNum KOrd
  | OCmpStr => same o KStr KOrd | OCmpOrd => same o KOrd KOrd
  | OEqNil => same o KNil KBool | OEqBool => same o KBool KBool | OEqNum => same o KNum KBool
  | OEqStr => same o KStr KBool | OEqOrd => same o KOrd KBool
  | OCmp => tuple_op o InjTupleCmp KOrd
  | OEq => tuple_op o InjTupleEq KBool
  (* diagnostics.rs:30-37, 75-87 *)
  | OBenchmark => any_arg None (fun a => PEval KTab (plain o [a]))
  | OTypify => any_arg None (fun a => named_flag "verbose" (fun v => PEval KStr (Code o (opt "verbose" v) [a] [] None None)))
  (* io.rs:49-66, 86-110, 203-257, 289-332 *)
  | OLsTab => unary o KTab KTab
  | OLs => PSays KTab (if len =? 0 then PEval KTab (plain o []) else arg (Some KNil) KStr (fun a => PEval KTab (plain o [a])))
  | OOpen =>
      arg None KStr (fun a => flag_type (fun t =>
      match t with
      | None | Some TTab => PEval KTab (Code o [] [a] [] (Some KTab) None)
      | Some TStr => PEval KStr (Code o [] [a] [] (Some KStr) None)
      | Some _ => PFail code err_wrong
      end))
  | OSave => PSays tin (if tkey_eqb tin KTabRow then PFail code err_wrong else arg None KStr (fun a => PEval tin (plain o [a])))
  (* logic.rs:24-29, 60-110, 124-129, 143-148 *)
  | OAnd | OOr => agnostic o KBool
  | OIf =>
      if Nat.even len then PFail code err_few_args else
      arms (Nat.div2 len) [] (fun l => any_arg None (fun e =>
      if forallb (fun a => tkey_eqb (ar_out e) (ar_out a)) (branches l) then PEval (ar_out e) (plain o (l ++ [e])) else PFail code err_arms))
  | ONot => unary o KBool KBool
  (* morphism.rs *)
  | OAppend => (* 60-81 *)
      assert_input KTab (PSays KTab (if len =? 0 then PFail code err_few_args else
      POblige (Some KTabRow) (appends len [] [] (fun l cols => PEval KTab (Code o cols l [] None None)))))
  | OAppendRow => (* 148-165 *) assert_input KTab (PSays KTab (POblige None (any_args len None [] (fun l => PEval KTab (plain o l)))))
  | ODedupStr | ORevStr => unary o KStr KStr
  | ODedupTab => (* 240-248 *)
      assert_input KTab (PSays KTab (if len =? 0 then PEval KTab (plain o []) else colnames (fun l => PEval KTab (plain o l))))
  | OFilterStr => (* 279-289 *) assert_input KStr (PSays KStr (arg (Some KStr) KBool (fun a => PEval KStr (plain o [a]))))
  | OFilterTab => (* 355-420, 490-496 *)
      assert_input KTab (PSays KTab (named_flag "cols" (fun cols =>
      if cols then arg (Some KStr) KBool (fun a => PEval KTab (Code o (opt "cols" true) [a] [] None None))
      else if len =? 1 then arg (Some KTabRow) KBool (fun a => PEval KTab (plain o [a]))
      else arg (Some KNil) KStr (fun col => flag_type (fun t => flagged_arg t (Some KBool) (fun a => PEval KTab (Code o [] [col; a] [] (Some (ar_in a)) None)))))))
  | OFold => (* 547-579 *)
      PAddsVars true (assert_input KTab (PNext (ok (fun b => PDecouple b (PSupplied b (Some KNil) (ok (fun b => PConcrete b (ok (fun s =>
      PSays (ar_out s) (inject_next "row" TTabRow (fun v => PVarsAdded (
      arg (Some (ar_out s)) (ar_out s) (fun a => PEval (ar_out s) (Code o [] [s; a] [some_slot v] None None))))))))))))))
  | OFoldWhile => (* 602-646 *)
      assert_input KTab (any_arg (Some KNil) (fun s => PSays (ar_out s) (
      inject_next "row" TTabRow (fun v => arg (Some (ar_out s)) KBool (fun p =>
      inject_next "row" TTabRow (fun w => arg (Some (ar_out s)) (ar_out s) (fun a =>
      PEval (ar_out s) (Code o [] [s; p; a] [some_slot v; some_slot w] None None))))))))
  | OGrp | OSort => (* 671-677, 1351-1356 *) assert_input KTab (PSays KTab (colnames (fun l => PEval KTab (plain o l))))
  | OGrpBy | OSortBy => (* 751-760, 1438-1447 *)
      assert_input KTab (PSays KTab (any_arg (Some KTabRow) (fun a => cmp_cmd (ar_out a) (PEval KTab (plain o [a])))))
  | OMap => (* 861-915 *)
      assert_input KTab (PSays KTab (PAddsVars true (PNext (ok (fun b => PDecouple b (PSupplied b (Some KNil) (ok (fun b => PReturns b KStr (ok (fun b =>
      PConcrete b (ok (fun col => named_flag "force" (fun force =>
      let rest t := inject_next "row" TTabRow (fun v => PVarsAdded (flagged_arg (if force then Some TNil else t) None (fun a =>
                    PEval KTab (Code o (opt "force" force) [col; a] [some_slot v] (Some (ar_in a)) None)))) in
      if force then rest None else flag_type rest)))))))))))))
  | OPick => (* 973-978 *)
      named_flag "add" (fun a => named_flag "trail" (fun t => colnames (fun l => PEval KTab (Code o (opt "add" a ++ opt "trail" t) l [] None None))))
  | ORen => (* 1040-1068 *) assert_input KTab (PSays KTab (renames (Nat.div2 len) [] (fun l => PEval KTab (plain o l))))
  | ORenWith => (* 1142-1164 *)
      assert_input KTab (PSays KTab (arg (Some KNil) KNum (fun r => flag_type (fun t => flagged_arg t (Some KStr) (fun a =>
      PEval KTab (Code o [] [r; a] [] (Some (ar_in a)) None))))))
  | ORevTab => by_cols o KTab
  | OSkipStr | OTakeStr | ONthStr => counted o KStr
  | OSkipTab | OTakeTab => counted o KTab
  (* pipeline.rs *)
  | OGetRow => (* 68-99 *)
      assert_input KTabRow (arg (Some KNil) KStr (fun col =>
      if len =? 2 then any_arg (Some KNil) (fun d => PEval (ar_out d) (plain o [col; d]))
      else flag_type (fun t => match t with
        | Some t => PEval (key_of t) (Code o [] [col] [] (Some (key_of t)) None)
        | None => POutput (fun u => match u with Some u => PEval u (Code o [] [col] [] (Some u) None) | None => PFail code err_blk_out end)
        end)))
  | OGet => (* 114-120 *)
      any_arg None (fun a => accessor tin a (fun i u => PEval (key_of u) (Code o [] [a] [] None (Some i))))
  | ODot => (* 232-259 *)
      any_arg None (fun a => PNext (ok (fun b => PSupplied b (Some KNil) (ok (fun b =>
      match ar_out a with
      | KTabRow => PReturns b KStr (ok (fun b => PConcrete b (ok (fun col =>
          POutput (fun u => match u with Some u => PEval u (Code o [] [a; col] [] (Some u) None) | None => PFail code err_blk_out end)))))
      | t => PConcrete b (ok (fun f => accessor t f (fun i u => PEval (key_of u) (Code o [] [a; f] [] None (Some i)))))
      end)))))
  | OIn => (* 280-286 *) any_arg None (fun a => PSays (ar_out a) (PEval (ar_out a) (plain o [a])))
  | OLenStr => unary o KStr KNum
  | OLenTab => by_cols o KNum
  | OLet => (* 384-458 *)
      PAddsVars false (PSays tin (POblige None (lets (Nat.div2 len) [] [] (fun l vs =>
      if Nat.even len then PVarsAdded (PEval tin (Code o [] l vs None None))
      else PNext (ok (fun b => PCreate (b_node b) (rep tin) (ok (fun v => PVarsAdded (PEval tin (Code o [] l (vs ++ [v]) None None))))))))))
  | ONthTab => (* 523-534 *) assert_input KTab (arg None KNum (fun n => any_arg (Some KTabRow) (fun a => PEval (ar_out a) (plain o [n; a]))))
  | ORand => (* 583-640 *)
      let t := if len =? 3 then KTab else KNum in
      PSays t (args (if len <=? 3 then len else 0) None KNum [] (fun l => PEval t (plain o l)))
  | ORange => (* 680-723 *)
      PSays KTab (arg None KNum (fun from =>
      if (len =? 1) && tkey_eqb tin KNum then PEval KTab (plain o [from])
      else arg None KNum (fun to => PEval KTab (plain o [from; to]))))
  | OTable => (* 743-764 *) PSays KTab (args len None KStr [] (fun l => PEval KTab (plain o l)))
  | OToStrBool => unary o KBool KStr
  | OToStrNum => (* 793-826 *)
      assert_input KNum (PSays KStr (if len =? 0 then PEval KStr (plain o []) else
      arg None KStr (fun a => ok (fun x => if format x then PEval KStr (plain o [a]) else PFail code err_format) (text a))))
  | OToStrStr => unary o KStr KStr
  | OToStr => PSays KStr (PEval KStr (plain o []))
  | OTuple => (* 889-914 *)
      if len <? 2 then PFail code err_few_args else
      any_args len None [] (fun l => let t := KDef (tuple_name (map (fun a => rep (ar_out a)) l)) in PAnon t (PSays t (PEval t (plain o l))))
  (* lang/impls/mod.rs:366-390 *)
  | OInit d v => inits (init_fields d v) [] (fun l => PEval (KDef (td_name d)) (plain o l))
  end.
End Ops.

(** mod.rs:460-463: the intrinsic at a command.  [NIntrinsic] only holds those of the tables, so that the other case does not happen. *)
Definition ops_prog (g : graph) (rep : tkey -> ty) (types : str -> option ty) (format : str -> bool)
  (inject : comp code binding cparam -> injected -> tkey -> tkey + cerr) (c : comp code binding cparam) (cmd : nat) (t : tkey) : prog :=
  match node g cmd with
  | Some (NIntrinsic _ f) =>
      match op_of f with
      | Some o => op_prog g rep types format (inject c) t (match get_args g cmd with Ok l => length l | _ => 0 end) o
      | None => PFail code err_wrong
      end
  | _ => PFail code err_wrong
  end.
