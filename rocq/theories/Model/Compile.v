(** The compile loop.  Models ogma/src/eng/comp/mod.rs: compile_with_seed_vars 32-81, compile 125-187,
    def_nodes_with_known_path and predict_path 194-215, populate_compiled_expressions 226-250, assign_variable_types
    259-304, link_known_def_path_args 309-332, compile_blocks 348-446, compile_block 449-502, Stack::build 640-675;
    ogma/src/eng/comp/params.rs: insert_available_def_locals 23-64; ogma/src/eng/comp/infer.rs: infer_inputs_tgt_ops
    21-45, infer_inputs_tgt_shallow_expr 47-119, infer_outputs 122-182, trial_inferred_types 200-239, test_compile_types 256-318;
    ogma/src/eng/comp/resolve_tg.rs: apply_graph_chgs 151-171; ogma/src/eng/graphs/astgraph.rs: sinks 477-510,
    detect_var 648-654.

    Outside of this model, and arbitrary: what an intrinsic answers when it is asked to compile its block, what becomes
    of the arguments of a call and of the parameters of a definition.  What those may ask of the graphs is what the
    interfaces blk.rs, arg.rs and params.rs let them push.  Those may panic too; then there is no answer ([None]).  The traces of errors and the assertions of debug builds are
    left out. *)
From Coq Require Import String List NArith Bool Arith.
From Verif Require Import Model.Base Model.Value Model.Ast Model.Registry Model.AstGraph Model.TyBuild.
From Verif Require Model.TyGraph Model.Locals Model.Infer.
Import ListNotations.
Set Implicit Arguments.

(** common/err.rs:52-70 [Error]: is it [hard], is it the one of 564-574 (577-579), and a code for all the rest *)
Record cerr := CErr { er_hard : bool; er_deep : bool; er_code : nat }.
(** A panic: [expect("error should be some if unsuccessful")] of mod.rs:445, or another *)
Inductive crash := NoError | Missing.
(** How a computation ends; [NoFuel] is not a result of the code. *)
Inductive out (A : Type) := Good (a : A) | Bad (e : cerr) | Crash (w : crash) | NoFuel.
Arguments Bad {A}. Arguments Crash {A}. Arguments NoFuel {A}.
Definition obind {A B} (r : out A) (f : A -> out B) : out B :=
  match r with Good a => f a | Bad e => Bad e | Crash w => Crash w | NoFuel => NoFuel end.
Notation "'let!' x ':=' r 'in' k" := (obind r (fun x => k)) (at level 200, x name, r at level 100, k at level 200).
Fixpoint omapM {A B} (f : A -> out B) (l : list A) : out (list B) :=
  match l with [] => Good [] | a :: l => let! b := f a in let! bs := omapM f l in Good (b :: bs) end.
Fixpoint ofilter {A} (f : A -> out bool) (l : list A) : out (list A) :=
  match l with [] => Good [] | a :: l => let! b := f a in let! r := ofilter f l in Good (if b then a :: r else r) end.
(** Functions of other files whose failures are panics *)
Definition sure {A} (r : res A) : out A := match r with Ok a => Good a | _ => Crash Missing end.
Definition expect {A} (o : option A) : out A := match o with Some a => Good a | None => Crash Missing end.

(** astgraph.rs:520-541 [get_impl], by the type up to equality *)
Fixpoint pick_key (t : tkey) (es : list edge) (fallback : option nat) : option nat :=
  match es with
  | [] => fallback
  | e :: es => match e_rel e with
               | RKeyed None => pick_key t es (Some (e_dst e))
               | RKeyed (Some t') => if tkey_eqb (key_of t') t then Some (e_dst e) else pick_key t es fallback
               | _ => pick_key t es fallback
               end
  end.
Definition key_impl (g : graph) (op : nat) (t : tkey) : option nat := pick_key t (edges g op) None.

(** petgraph [has_path_connecting]; edges lead to later nodes *)
Definition has_path (g : graph) (a b : nat) : bool := existsb (Nat.eqb a) (before b g b).
(** astgraph.rs:477-510; from the last node to the first, a node goes out if a later one that stays can be reached from it *)
Fixpoint sinks_loop (g : graph) (fuel : nat) (ns : list nat) : list nat :=
  match fuel, ns with
  | S fuel, to :: rest => to :: sinks_loop g fuel (filter (fun from => negb (has_path g from to)) rest)
  | _, _ => []
  end.
Definition sinks (g : graph) (ns : list nat) : list nat := sinks_loop g (length ns) (rev ns).
Definition is_var (x : anode) : bool := match x with NVar _ => true | _ => false end.
(** astgraph.rs:648-654 *)
Definition detect_var (g : graph) (op : nat) : bool := existsb (has_path g op) (sinks g (TyBuild.indices g is_var)).

Section Compile.
Variables (P A Q : Type).  (** the code of an intrinsic block, an argument bound to a variable, a [CallsiteParam] *)

(** eng/mod.rs:122-126, eng/step.rs [Step], [Step::def]: the output type, and what to run *)
Inductive cstep := Prim (out : tkey) (x : P) | Call (out : tkey) (ps : list A) (stack : list cstep).
Definition s_out (s : cstep) : tkey := match s with Prim o _ => o | Call o _ _ => o end.

(** eng/mod.rs:28-60 [Compiler]; the graph of the expression does not change and is left out. *)
Record comp := Comp {
  c_tg : TyGraph.state tkey;
  c_lg : Locals.lgraph;
  c_ops : list (nat * cstep);
  c_exprs : list (nat * list cstep);
  c_infer : list nat;
  c_params : list (nat * list Q);
  c_depth : nat }.
Definition set_tg (c : comp) x := Comp x (c_lg c) (c_ops c) (c_exprs c) (c_infer c) (c_params c) (c_depth c).
Definition set_lg (c : comp) x := Comp (c_tg c) x (c_ops c) (c_exprs c) (c_infer c) (c_params c) (c_depth c).
Definition set_ops (c : comp) x := Comp (c_tg c) (c_lg c) x (c_exprs c) (c_infer c) (c_params c) (c_depth c).
Definition set_exprs (c : comp) x := Comp (c_tg c) (c_lg c) (c_ops c) x (c_infer c) (c_params c) (c_depth c).
Definition set_infer (c : comp) x := Comp (c_tg c) (c_lg c) (c_ops c) (c_exprs c) x (c_params c) (c_depth c).
Definition set_params (c : comp) x := Comp (c_tg c) (c_lg c) (c_ops c) (c_exprs c) (c_infer c) x (c_depth c).
Definition set_depth (c : comp) x := Comp (c_tg c) (c_lg c) (c_ops c) (c_exprs c) (c_infer c) (c_params c) x.

(** graphs/mod.rs [Chg] *)
Inductive gchg := Tg (c : TyGraph.chg tkey) | Lg (c : Locals.lchg).
(** What may be asked for while a block is compiled or parameters are mapped: arg.rs:88-123 [supplied], blk.rs:229-236
    [oblige_args_supplied_tys], arg.rs:126-157 [returns], blk.rs:58-71 [assert_output], blk.rs:76-78
    [insert_anon_type_into_compiler], locals_graph.rs [new_var], [new_lazy], blk.rs:133-137 [assert_vars_added],
    blk.rs:117-127 [assert_adds_vars] and arg.rs:74-81 [decouple_op_seal] *)
Inductive ask :=
| AskInput (n : nat) (t : tkey)
| AskObliged (n : nat) (t : tkey)
| AskReturns (n : nat) (t : tkey)
| AskOutput (n : nat) (t : tkey)
| AskAnon (t : tkey)
| AskVar (x : str) (t : ty) (n : nat)
| AskLazy (x : str) (to n : nat)
| AskSeal (op : nat)
| AskBreak (op arg : nat).
Definition asked (a : ask) : gchg :=
  match a with
  | AskInput n t => Tg (TyGraph.KnownInput n t)
  | AskObliged n t => Tg (TyGraph.ObligeInput n t)
  | AskReturns n t => Tg (TyGraph.ObligeOutput n t)
  | AskOutput n t => Tg (TyGraph.KnownOutput n t)
  | AskAnon t => Tg (TyGraph.AnonTy t)
  | AskVar x t n => Lg (Locals.NewVar x t n)
  | AskLazy x to n => Lg (Locals.NewLazy x to n)
  | AskSeal op => Lg (Locals.Seal op)
  | AskBreak op arg => Lg (Locals.BreakEdge op arg)
  end.

(** graphs/mod.rs [Chgs] and a result *)
Record reply (R : Type) := Reply { r_res : R + cerr; r_asks : list ask; r_infer : bool; r_adds : bool }.

(** params.rs:67-71 [LocalInjection] *)
Inductive injection := Success (ps : list Q) | LgChange | UnknownReturnTy.

Variable g : graph.
(** the intrinsic of a command node, compiled for an input type; mod.rs:460-463 *)
Variable intr : comp -> nat -> tkey -> option (reply (tkey * P)).
(** the arguments of a call of a definition; mod.rs:521-557 *)
Variable call_args : comp -> nat -> tkey -> option ((list A + cerr) * list ask).
(** the parameters of a definition; params.rs:80-154 *)
Variable map_params : comp -> nat -> option ((injection + cerr) * list ask).
(** orders of iteration of hash maps and sets *)
Variable order : Locals.lmap -> Locals.lmap.
Variable shuffle : list nat -> list nat.

Definition kn (c : comp) (n : nat) (s : TyGraph.side) : option (TyGraph.kn tkey) := TyGraph.kn_at (fst (c_tg c)) (n, s).
(** tygraph.rs [ty], [has_ty], [is_multiple] of a side *)
Definition ty_at (c : comp) (n : nat) (s : TyGraph.side) : option tkey :=
  match kn c n s with Some k => TyGraph.kn_ty k | None => None end.
Definition has_ty_at (c : comp) (n : nat) (s : TyGraph.side) : bool :=
  match kn c n s with Some k => TyGraph.has_ty k | None => false end.
Definition multiple_at (c : comp) (n : nat) (s : TyGraph.side) : bool :=
  match kn c n s with Some k => TyGraph.is_multiple k | None => false end.
Definition has {V} (n : nat) (m : list (nat * V)) : bool := match alookup Nat.eqb n m with Some _ => true | None => false end.

(** resolve_tg.rs:151-171; a conflict is a hard error (184) *)
Fixpoint apply_all (c : comp) (cs : list gchg) (acc : bool) : out (comp * bool) :=
  match cs with
  | [] => Good (c, acc)
  | Tg x :: cs =>
      match TyGraph.apply_chg tkey_eqb (fst (c_tg c)) x with
      | (tg, Ok b) => apply_all (set_tg c (tg, snd (c_tg c))) cs (acc || b)
      | (_, Err e) => Bad (CErr true false e)
      | (_, Panic) => Crash Missing
      end
  | Lg x :: cs =>
      match Locals.apply_chg order (c_lg c) x with
      | Ok (b, lg) => apply_all (set_lg c lg) cs (acc || b)
      | _ => Crash Missing
      end
  end.

(** resolve_tg.rs:6-21 *)
Definition resolve (c : comp) : out comp :=
  match TyGraph.exec_c tkey_eqb (c_tg c) (TyGraph.CResolve tkey) with
  | (s, Ok _) => Good (set_tg c s)
  | (_, Err e) => Bad (CErr false false e)
  | (_, Panic) => Crash Missing
  end.

(** ** Expressions whose blocks are all compiled, mod.rs:226-250 and 640-675 *)
Fixpoint all_some {V} (l : list (option V)) : option (list V) :=
  match l with
  | [] => Some []
  | Some v :: l => match all_some l with Some vs => Some (v :: vs) | None => None end
  | None :: _ => None
  end.
Definition stack_of (c : comp) (e : nat) : option (list cstep) :=
  all_some (map (fun o => alookup Nat.eqb o (c_ops c)) (rev (op_neighbors g e))).
Fixpoint populate_loop (c : comp) (es : list nat) (chgd : bool) : comp * bool :=
  match es with
  | [] => (c, chgd)
  | e :: es => match stack_of c e with
               | Some stack => populate_loop (set_exprs c (ainsert Nat.eqb e stack (c_exprs c))) es true
               | None => populate_loop c es chgd
               end
  end.
Definition populate (c : comp) : comp * bool :=
  populate_loop c (filter (fun e => negb (has e (c_exprs c)) && (has_ty_at c e TyGraph.In_ && has_ty_at c e TyGraph.Out_))
                          (TyBuild.indices g is_expr)) false.

(** ** Variables, mod.rs:259-304 *)
Definition var_chgs (c : comp) (n : nat) : out (list gchg) :=
  match node g n with
  | Some (NVar t) =>
      if multiple_at c n TyGraph.Out_ then
        let! r := sure (Locals.get_opt (c_lg c) n (tg_str t)) in
        Good match snd r with
             | Some (Locals.EVar ty _) => [Tg (TyGraph.KnownOutput n (key_of ty)); Tg (TyGraph.AnyInput n)]
             | Some (Locals.EPtr to) => [Tg (TyGraph.AddEdge to n TyGraph.II); Tg (TyGraph.AddEdge to n TyGraph.OO)]
             | None => []
             end
      else Good []
  | _ => Good []
  end.
Definition assign_variable_types (c : comp) : out (comp * bool) :=
  let! l := omapM (var_chgs c) (seq 0 (length (g_nodes g))) in
  apply_all c (concat l) false.

(** ** Definitions that are known to be called, mod.rs:194-215 *)
Definition predict_path (c : comp) (op : nat) : option nat :=
  match ty_at c op TyGraph.In_ with
  | Some t => match key_impl g op t with Some d => if at_is g is_def d then Some d else None | None => None end
  | None => match cmds g op with d :: rest => if at_is g is_def d then match rest with [] => Some d | _ => None end else None | [] => None end
  end.
Definition known_paths (c : comp) : list nat :=
  flat_map (fun op => match predict_path c op with Some d => [d] | None => [] end) (TyBuild.indices g is_op).

(** params.rs:23-64 *)
Fixpoint locals_loop (c : comp) (ds : list nat) (cs : list gchg) (chgd : bool) : out (comp * list gchg * bool) :=
  match ds with
  | [] => Good (c, cs, chgd)
  | d :: ds =>
      let! ra := expect (map_params c d) in
      let (r, asks) := ra in
      let cs := cs ++ map asked asks in
      match r with
      | inr e => Bad e
      | inl (Success ps) =>
          let! x := sure (def_expr g d) in
          let! lg := sure (Locals.apply_chg order (c_lg c) (Locals.SealExpr x)) in
          locals_loop (set_lg (set_params c (ainsert Nat.eqb d ps (c_params c))) (snd lg)) ds cs true
      | inl _ => locals_loop c ds cs chgd
      end
  end.
Definition insert_available_def_locals (c : comp) : out (comp * bool) :=
  let! r := locals_loop c (filter (fun d => negb (has d (c_params c))) (known_paths c)) [] false in
  let! r2 := apply_all (fst (fst r)) (snd (fst r)) false in
  Good (fst r2, snd r || snd r2).

(** mod.rs:309-332 *)
Fixpoint link_loop (c : comp) (ds : list nat) (chgd : bool) : out (comp * bool) :=
  match ds with
  | [] => Good (c, chgd)
  | d :: ds =>
      let! r := sure (link_defs g [d] (fst (c_tg c))) in
      link_loop (set_tg c (fst r, snd (c_tg c))) ds (chgd || snd r)
  end.
Definition link_known_def_path_args (c : comp) : out (comp * bool) :=
  let! ds := ofilter (fun d => let! op := sure (cmd_parent g d) in Good (negb (has op (c_ops c)))) (known_paths c) in
  link_loop c ds false.

(** ** Blocks *)
(** errors of this file: [op_not_found], [incomplete_expr_compilation], of a guess, of the depth of guesses *)
Definition err_impl : cerr := CErr false false 900.
Definition err_incomplete : cerr := CErr false false 901.
Definition err_guess : cerr := CErr false false 902.
Definition err_depth : cerr := CErr true true 903.

(** mod.rs:449-502 *)
Definition compile_block (c : comp) (op : nat) (t : tkey) : out (reply cstep) :=
  match key_impl g op t with
  | None => Good (Reply (inr err_impl) [] false false)
  | Some cmd =>
      match node g cmd with
      | Some (NIntrinsic _ _) =>
          let! r := expect (intr c cmd t) in
          Good (Reply (match r_res r with inl (u, x) => inl (Prim u x) | inr e => inr e end) (r_asks r) (r_infer r) (r_adds r))
      | Some (NDef _ _) =>
          let! x := sure (def_expr g cmd) in
          match alookup Nat.eqb x (c_exprs c) with
          | Some stack =>
              let! ra := expect (call_args c cmd t) in
              let (r, asks) := ra in
              match r with
              | inl ps => let! u := expect (ty_at c x TyGraph.Out_) in Good (Reply (inl (Call u ps stack)) asks false false)
              | inr e => Good (Reply (inr e) asks false false)
              end
          | None => Good (Reply (inr err_incomplete) [AskInput x t] false false)
          end
      | _ => Crash Missing
      end
  end.

(** mod.rs:424-431 *)
Definition worse (old : option cerr) (new : cerr) : cerr :=
  if er_hard new then new else match old with Some a => if er_hard a then a else new | None => new end.

(** mod.rs:367-439 *)
Fixpoint blocks_loop (c : comp) (ns : list nat) (cs : list gchg) (done : bool) (err : option cerr)
  : out (comp * list gchg * bool * option cerr) :=
  match ns with
  | [] => Good (c, cs, done, err)
  | n :: ns =>
      let! t := expect (ty_at c n TyGraph.In_) in
      let! r := compile_block c n t in
      let cs := cs ++ map asked (r_asks r) in
      let seal := if r_adds r then [] else [Lg (Locals.Seal n)] in
      match r_res r with
      | inl s => blocks_loop (set_ops c (ainsert Nat.eqb n s (c_ops c))) ns
                   (cs ++ [Tg (TyGraph.KnownOutput n (s_out s))] ++ seal) true err
      | inr e => blocks_loop (if r_infer r then set_infer c (c_infer c ++ [n]) else c) ns (cs ++ seal) done (Some (worse err e))
      end
  end.
Definition ready (c : comp) : list nat :=
  filter (fun n => negb (has n (c_ops c)) && has_ty_at c n TyGraph.In_) (TyBuild.indices g is_op).
(** mod.rs:348-446: [None] is [Ok(())], an error comes with the state *)
Definition compile_blocks (c : comp) : out (comp * option cerr) :=
  let! r := blocks_loop c (ready c) [] false None in
  let '(c, cs, done, err) := r in
  let! r := apply_all c cs false in
  if done || snd r then Good (fst r, None)
  else match err with Some e => Good (fst r, Some e) | None => Crash NoError end.

(** ** Guessing *)
(** [Ok(true)], [Ok(false)], [Err(e)] *)
Inductive ans := Yes | No | Oops (e : cerr).
Definition yes_no (r : out (comp * bool)) : out (comp * ans) :=
  let! r := r in Good (fst r, if snd r then Yes else No).

Definition tys_at (c : comp) (n : nat) (s : TyGraph.side) : option (list tkey) :=
  match kn c n s with Some (TyGraph.Inferred ts) => Some ts | _ => None end.

(** infer.rs:200-239 *)
Definition is_lg (a : ask) : bool := match asked a with Lg _ => true | Tg _ => false end.
Definition failing_types (c : comp) (op : nat) : out (list gchg) :=
  let! ts := expect (tys_at c op TyGraph.In_) in
  let! rs := omapM (fun t => let! r := compile_block c op t in
                             Good (t, Infer.Build_report (match r_res r with inl _ => true | inr _ => false end) (r_infer r)
                                        (existsb is_lg (r_asks r)))) ts in
  Good (map (fun x => Tg (TyGraph.RemoveInput op (fst x))) (Infer.trial_inferred_types snd rs)).
(** infer.rs:21-45 *)
Definition infer_inputs_block (c : comp) : out (comp * ans) :=
  let! ns := ofilter (fun n => if negb (has n (c_ops c)) && multiple_at c n TyGraph.In_
                               then let! s := sure (Locals.sealed (c_lg c) n) in Good (s || negb (detect_var g n))
                               else Good false) (TyBuild.indices g is_op) in
  let! l := omapM (failing_types c) (sinks g ns) in
  yes_no (apply_all c (concat l) false).

(** infer.rs:275-295: one candidate *)
Inductive tried := Unfit | Ran (r : out comp).
Section Trial.
  (** [compile] *)
  Variable rec : comp -> nat -> out comp.

  Definition oblige (s : TyGraph.side) : nat -> tkey -> TyGraph.chg tkey :=
    match s with TyGraph.In_ => @TyGraph.ObligeInput tkey | TyGraph.Out_ => @TyGraph.ObligeOutput tkey end.
  Definition strike (s : TyGraph.side) : nat -> tkey -> TyGraph.chg tkey :=
    match s with TyGraph.In_ => @TyGraph.RemoveInput tkey | TyGraph.Out_ => @TyGraph.RemoveOutput tkey end.
  Definition trial (c : comp) (s : TyGraph.side) (brk : nat -> res nat) (n : nat) (t : tkey) : tried :=
    match sure (brk n) with
    | Good b => match apply_all (set_depth c (S (c_depth c))) [Tg (oblige s n t)] false with
                | Good r => Ran (rec (fst r) b)
                | Bad _ => Unfit
                | Crash w => Ran (Crash w)
                | NoFuel => Ran NoFuel
                end
    | _ => Ran (Crash Missing)
    end.
  (** infer.rs:297-309; a trial that panics or runs out of fuel is found again below *)
  Definition outcome_of (x : tried) : Infer.outcome comp :=
    match x with
    | Unfit => Infer.Unfit
    | Ran (Good c) => Infer.Compiles c
    | Ran (Bad e) => if er_deep e then Infer.TooDeep else Infer.Fails
    | Ran _ => Infer.TooDeep
    end.
  Definition too_deep (x : tried) : bool := match outcome_of x with Infer.TooDeep => true | _ => false end.

  (** infer.rs:75-119 and 138-181 *)
  Definition guess (c : comp) (s : TyGraph.side) (brk : nat -> res nat) (ns : list nat) : out (comp * ans) :=
    let types n := match tys_at c n s with Some ts => ts | None => [] end in
    let verdict n := Infer.test_compile_types tkey_eqb (fun t => outcome_of (trial c s brk n t)) (types n) in
    match Infer.round_loop verdict ns None [] with
    | Infer.Adopted c' => Good (c', Yes)
    | Infer.Removals rm => yes_no (apply_all c (map (fun p => Tg (strike s (fst p) (snd p))) rm) false)
    | Infer.Failed _ _ => Good (c, Oops err_guess)
    | Infer.DeepError n =>
        match find too_deep (map (trial c s brk n) (types n)) with
        | Some (Ran (Bad e)) => Good (c, Oops e)
        | Some (Ran (Crash w)) => Crash w
        | Some (Ran NoFuel) => NoFuel
        | _ => Crash Missing
        end
    | Infer.Nothing => Good (c, No)
    end.

  (** infer.rs:122-182 with 184-188; sorted downwards, without repetition *)
  Definition infer_outputs (c : comp) : out (comp * ans) :=
    if c_depth c <? 5 then
      let ns := rev (filter (fun n => existsb (Nat.eqb n) (c_infer c)) (seq 0 (length (g_nodes g)))) in
      guess (set_infer c []) TyGraph.Out_ (Locals.op_parent g) (filter (fun n => multiple_at c n TyGraph.Out_) ns)
    else Good (c, Oops err_depth).

  (** infer.rs:47-119 *)
  Definition open_exprs (c : comp) : list nat :=
    filter (fun e => negb (has e (c_exprs c)) && multiple_at c e TyGraph.In_) (TyBuild.indices g is_expr).
  Definition infer_inputs_expr (c : comp) : out (comp * ans) :=
    if c_depth c <? 5 then
      let set := open_exprs c in
      let! ns := ofilter (fun n => let! p := sure (path_from_root g n) in
                                   Good (length (filter (fun m => existsb (Nat.eqb m) set) p) =? 1)) (shuffle set) in
      guess c TyGraph.In_ (@Ok nat) ns
    else Good (c, Oops err_depth).

  (** mod.rs:130-183: one round; the compiler to go on with, or the end *)
  Definition guesses (c : comp) (err : cerr) : out comp :=
    let! r := infer_inputs_block c in
    match r with
    | (c, Yes) => Good c
    | (c, a) =>
      let err := match a with Oops e => e | _ => err end in
      let! r := infer_outputs c in
      match r with
      | (c, Yes) => Good c
      | (c, a) =>
        let err := match a with Oops e => e | _ => err end in
        if match a with Oops e => er_hard e | _ => false end then Bad err else
        let! r := infer_inputs_expr c in
        match r with
        | (c, Yes) => Good c
        | (c, Oops e) => Bad e
        | (c, No) => Bad err
        end
      end
    end.
  Definition round (c : comp) : out comp :=
    let! c := resolve c in
    match populate c with
    | (c, true) => Good c
    | (c, false) =>
      let! r := assign_variable_types c in
      if snd r then Good (fst r) else
      let! r := insert_available_def_locals (fst r) in
      if snd r then Good (fst r) else
      let! r := link_known_def_path_args (fst r) in
      if snd r then Good (fst r) else
      let! r := compile_blocks (fst r) in
      match snd r with
      | None => Good (fst r)
      | Some e => if er_hard e then Bad e else guesses (fst r) e
      end
    end.
End Trial.

(** mod.rs:125-187 *)
Fixpoint compile (fuel : nat) (c : comp) (brk : nat) : out comp :=
  match fuel with
  | 0 => NoFuel
  | S fuel =>
      if has brk (c_exprs c) || has brk (c_ops c) then Good c
      else let! c := round (compile fuel) c in compile fuel c brk
  end.

(** mod.rs:43-66: the compiler before the first round *)
Definition fresh (tg : tg_t) (seeds : list (str * ty)) : out comp :=
  let! lg := sure (Locals.build g) in
  let! lg := sure (Locals.seed order lg (Locals.seed_vars seeds)) in
  Good (Comp (tg, []) lg [] [] [] [] 0).
(** mod.rs:68-80 *)
Definition compile_root (fuel : nat) (tg : tg_t) (seeds : list (str * ty)) : out (comp * list cstep) :=
  let! c := fresh tg seeds in
  let! c := compile fuel c 0 in
  let! stack := expect (alookup Nat.eqb 0 (c_exprs c)) in
  Good (c, stack).
End Compile.
