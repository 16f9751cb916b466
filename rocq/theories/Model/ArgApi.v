(** Arguments, parameters and the interface of intrinsics.  Models ogma/src/eng/arg.rs: ArgBuilder 8-313, Kn 315-334, Argument
    336-341, Hold 346-350 and 455-464, pop 339-342, next_arg 466-495; ogma/src/eng/blk.rs: 21-300 but for tags and help;
    ogma/src/eng/comp/params.rs: map_def_params_into_variables 80-154, map_lazy_param 158-174, map_callsite_param 176-233, finalise_args
    235-241; ogma/src/eng/comp/mod.rs: map_callsite_params_for_def_step 521-557, Block::construct 617-636;
    ogma/src/eng/comp/infer.rs: output_ty 429-461.

    An intrinsic is a Rust function that is given a [Block] and only has these functions to work on it with (the fields of [Block] and
    the changes are private to the engine).  It is modelled as the tree of the calls it makes.  The assertions of debug builds are left
    out, as are tags and the texts of errors. *)
From Coq Require Import String List NArith Bool Arith.
From Verif Require Import Model.Base Model.Value Model.Ast Model.Registry Model.AstGraph Model.TyBuild Model.Compile.
From Verif Require Model.TyGraph Model.Locals.
Import ListNotations.
Set Implicit Arguments.

(** ** What is known of a type: arg.rs:315-334 *)
Inductive known := KnAny | KnTy (t : tkey) | KnTys (ts : list tkey).
Definition known_of (k : TyGraph.kn tkey) : known :=
  match k with
  | TyGraph.Any => KnAny
  | TyGraph.Known t | TyGraph.Obliged t => KnTy t
  | TyGraph.Inferred ts => match TyGraph.only ts with Some t => KnTy t | None => KnTys ts end
  end.

(** arg.rs:346-350 [Hold]: a literal, by its node and type; the input, passed through ([#i]); a variable, by type and slot; a compiled
    expression, by its node and the type it returns *)
Inductive hold := HLit (n : nat) (t : tkey) | HInput (t : tkey) | HVar (t : ty) (slot : nat) | HExpr (e : nat) (t : tkey).
(** arg.rs:455-464 *)
Definition hold_ty (h : hold) : tkey :=
  match h with HLit _ t => t | HInput t => t | HVar t _ => key_of t | HExpr _ t => t end.
(** arg.rs:336-341; the node in place of the tag *)
Record argument := Argument { ar_node : nat; ar_in : tkey; ar_out : tkey; ar_hold : hold }.
(** params.rs:73-78 [CallsiteParam]; a variable is a type and a slot *)
Record cparam := CParam { cp_param : aparam; cp_ty : ty; cp_slot : nat; cp_idx : nat }.
(** mod.rs:526: a variable and the argument it is set to *)
Definition binding : Type := (ty * nat * argument)%type.
(** arg.rs:9-18 *)
Record builder := Builder { b_node : nat; b_in : known; b_out : known; b_blk : option tkey }.

(** err.rs: [unexp_arg_input_ty], [unknown_arg_input_type], [unexp_arg_output_ty], [unknown_arg_output_type], [var_not_found],
    [update_locals_graph], [incomplete_expr_compilation] is [err_incomplete], [insufficient_args], [unused_flags], [unused_args],
    [unexp_arg_variant] *)
Definition err_in_ty : cerr := CErr false false 910.
Definition err_in_unknown : cerr := CErr false false 911.
Definition err_out_ty : cerr := CErr false false 912.
Definition err_out_unknown : cerr := CErr false false 913.
Definition err_no_var : cerr := CErr true false 914.
Definition err_locals : cerr := CErr false false 915.
Definition err_few_args : cerr := CErr true false 916.
Definition err_flags : cerr := CErr true false 917.
Definition err_args : cerr := CErr false false 918.
Definition err_variant : cerr := CErr true false 919.

(** A call of this interface: a result or an error, and the changes that were pushed *)
Definition act (X : Type) : Type := out ((X + cerr) * list ask).
Definition say {X} (x : X) (asks : list ask) : act X := Good (inl x, asks).
Definition fail {X} (e : cerr) (asks : list ask) : act X := Good (inr e, asks).
(** [?] *)
Definition abind {X Y} (m : act X) (f : X -> act Y) : act Y :=
  let! r := m in
  match fst r with
  | inl x => let! r2 := f x in Good (fst r2, snd r ++ snd r2)
  | inr e => Good (inr e, snd r)
  end.
Fixpoint amapM {X Y} (f : X -> act Y) (l : list X) : act (list Y) :=
  match l with [] => say [] [] | x :: l => abind (f x) (fun y => abind (amapM f l) (fun ys => say (y :: ys) [])) end.

(** ** [ArgBuilder] *)
(** arg.rs:88-123 *)
Definition supplied (b : builder) (ty : option tkey) : (builder + cerr) * list ask :=
  match (match ty with Some t => Some t | None => b_blk b end) with
  | None => (inl b, [])
  | Some t =>
      let b := match b_in b with KnAny => Builder (b_node b) (KnTy t) (b_out b) (b_blk b) | _ => b end in
      match b_in b with
      | KnTy u => if tkey_eqb u t then (inl b, []) else (inr err_in_ty, [])
      | KnTys ts => (inr err_in_unknown, if TyGraph.mem tkey_eqb t ts then [AskInput (b_node b) t] else [])
      | KnAny => (inl b, [])   (* does not happen: it is [KnTy] by now *)
      end
  end.
(** arg.rs:126-157; [unreachable!] for [Any] *)
Definition returns (b : builder) (t : tkey) : act builder :=
  match b_out b with
  | KnTy u => if tkey_eqb u t then say b [] else fail err_out_ty []
  | KnTys ts => fail err_out_unknown (if TyGraph.mem tkey_eqb t ts then [AskReturns (b_node b) t] else [])
  | KnAny => Crash Missing
  end.
(** arg.rs:159-164 *)
Definition return_ty (b : builder) : option tkey := match b_out b with KnTy t => Some t | _ => None end.

Section Api.
Variable P : Type.
Notation comp := (comp P binding cparam).
Notation cstep := (cstep P binding).
Variable g : graph.
(** a type, given what it is compared by *)
Variable rep : tkey -> ty.

(** arg.rs:48-66; this recursion is over pointers. *)
Fixpoint follow (fuel : nat) (c : comp) (n : nat) : out nat :=
  match node g n with
  | None => Crash Missing
  | Some (NVar t) =>
      let! r := sure (Locals.get_opt (c_lg c) n (tg_str t)) in
      match snd r with
      | Some (Locals.EPtr to) => match fuel with 0 => NoFuel | S fuel => follow fuel c to end
      | _ => Good n
      end
  | Some _ => Good n
  end.
(** arg.rs:21-46; the types stay those of the node one starts from *)
Definition new_arg (c : comp) (n : nat) (blk : option tkey) : out builder :=
  let! i := expect (kn c n TyGraph.In_) in
  let! o := expect (kn c n TyGraph.Out_) in
  let! m := follow (length (g_nodes g)) c n in
  Good (Builder m (known_of i) (known_of o) blk).
(** arg.rs:74-81 *)
Definition decouple (b : builder) : out (list ask) := let! op := sure (Locals.arg_op g (b_node b)) in Good [AskBreak op (b_node b)].

(** arg.rs:303-312 [assert_var_exists] *)
Definition var_exists (c : comp) (b : builder) : out (option bool + cerr) :=
  match node g (b_node b) with
  | None => Crash Missing
  | Some (NVar t) =>
      let! r := sure (Locals.get_opt (c_lg c) (b_node b) (tg_str t)) in
      Good match r with
           | (true, Some _) => inl (Some true)
           | (true, None) => inr err_no_var
           | (false, _) => inl (Some false)
           end
  | Some _ => Good (inl None)
  end.

(** eval.rs:51-53 [Stack::out_ty] *)
Fixpoint last_out (ss : list cstep) : option tkey :=
  match ss with [] => None | [s] => Some (s_out s) | _ :: ss => last_out ss end.
(** arg.rs:205-288 *)
Definition hold_of (c : comp) (n : nat) : out (hold + cerr) :=
  match node g n with
  | Some (NIdent _) => Good (inl (HLit n KStr))
  | Some (NNum _ _) => Good (inl (HLit n KNum))
  | Some (NPound PNil _) => Good (inl (HLit n KNil))
  | Some (NPound PTrue _) | Some (NPound PFalse _) => Good (inl (HLit n KBool))
  | Some (NPound PNewline _) => Good (inl (HLit n KStr))
  | Some (NPound PInput _) => let! t := expect (ty_at c n TyGraph.Out_) in Good (inl (HInput t))
  | Some (NVar t) =>
      match Locals.get (c_lg c) n (tg_str t) with
      | Ok (Locals.EVar ty slot) => Good (inl (HVar ty slot))
      | Ok (Locals.EPtr _) => Crash Missing
      | Err 1 => Good (inr err_locals)
      | Err 2 => Good (inr err_no_var)
      | _ => Crash Missing
      end
  | Some (NExpr _) =>
      match alookup Nat.eqb n (c_exprs c) with
      | Some ss => let! t := expect (last_out ss) in Good (inl (HExpr n t))
      | None => Good (inr err_incomplete)
      end
  | _ => Crash Missing
  end.
(** arg.rs:168-203 *)
Definition concrete (c : comp) (b : builder) : out (argument + cerr) :=
  let! v := var_exists c b in
  match v with
  | inr e => Good (inr e)
  | inl _ =>
      match b_in b, b_out b with
      | KnAny, _ | KnTys _, _ => Good (inr err_in_unknown)
      | _, KnAny | _, KnTys _ => Good (inr err_out_unknown)
      | KnTy i, KnTy o =>
          let! h := hold_of c (b_node b) in
          Good match h with
               | inr e => inr e
               | inl h => if tkey_eqb (hold_ty h) o then inl (Argument (b_node b) i o h) else inr err_out_ty
               end
      end
  end.

(** ** Calls of definitions *)
Definition param_ty (p : aparam) : option tkey := match snd p with PSpecified t => Some (key_of t) | _ => None end.
(** mod.rs:521-557, one parameter *)
Definition call_arg (c : comp) (args : list nat) (t : tkey) (p : cparam) : act binding :=
  let! n := expect (nth_error args (cp_idx p)) in
  let! b := new_arg c n (Some t) in
  abind (Good (supplied b (Some t))) (fun b =>
  abind (match param_ty (cp_param p) with Some u => returns b u | None => say b [] end) (fun b =>
  let! a := concrete c b in
  Good (match a with inl a => inl (cp_ty p, cp_slot p, a) | inr e => inr e end, []))).
Definition call_args (c : comp) (d : nat) (t : tkey) : act (list binding) :=
  let! args := sure (get_args g d) in
  amapM (call_arg c args t) (match alookup Nat.eqb d (c_params c) with Some ps => ps | None => [] end).

(** params.rs:158-174: [true] if the variable is there *)
Definition map_lazy (c : comp) (n x : nat) (p : aparam) : out (bool * list ask) :=
  let! r := sure (Locals.new_lazy (c_lg c) x (fst p) n) in
  Good match r with inl _ => (true, []) | inr _ => (false, [AskLazy (fst p) n x]) end.
(** params.rs:176-233 *)
Inductive mapped := Bound (p : cparam) | Asked | Stop (i : injection cparam).
Definition map_callsite (c : comp) (n x idx : nat) (p : aparam) : act mapped :=
  let! b := new_arg c n None in
  let! r := match param_ty p with Some u => returns b u | None => say b [] end in
  match fst r with
  | inr _ => say (Stop (UnknownReturnTy cparam)) (snd r)
  | inl b =>
      let! v := var_exists c b in
      match v with
      | inr e => fail e (snd r)
      | inl (Some false) => say (Stop (LgChange cparam)) (snd r)
      | inl _ =>
          match return_ty b with
          | None => say (Stop (UnknownReturnTy cparam)) (snd r)
          | Some t =>
              let! v := sure (Locals.new_var (c_lg c) x (fst p) (rep t)) in
              match v with
              | inl (Locals.EVar ty slot) => say (Bound (CParam p ty slot idx)) (snd r)
              | inl (Locals.EPtr _) => Crash Missing
              | inr _ => say Asked (snd r ++ [AskVar (fst p) (rep t) x])
              end
          end
      end
  end.
(** params.rs:104-153; [idx as u8] *)
Fixpoint map_loop (c : comp) (x : nat) (ps : list aparam) (args : list nat) (idx : nat) (acc : list cparam) (chg : bool)
  : act (injection cparam) :=
  match ps with
  | [] => match args with
          | [] => if chg then say (LgChange cparam) [] else say (Success acc) []
          | _ :: _ => fail err_args []
          end
  | p :: ps =>
      match args with
      | [] => fail err_few_args []
      | n :: args =>
          if callsite p then
            abind (map_callsite c n x (N.to_nat (N.of_nat idx mod 256)) p) (fun m =>
            match m with
            | Bound cp => map_loop c x ps args (S idx) (acc ++ [cp]) chg
            | Asked => map_loop c x ps args (S idx) acc true
            | Stop i => say i []
            end)
          else
            let! r := map_lazy c n x p in
            abind (say tt (snd r)) (fun _ => map_loop c x ps args (S idx) acc (chg || negb (fst r)))
      end
  end.
(** params.rs:80-154 *)
Definition map_params (c : comp) (d : nat) : act (injection cparam) :=
  let! flags := sure (get_flags g d) in
  match flags with
  | _ :: _ => fail err_flags []
  | [] =>
      let! args := sure (get_args g d) in
      let! ps := sure (def_params g d) in
      let! x := sure (def_expr g d) in
      map_loop c x ps args 0 [] false
  end.

(** ** [Block] *)
(** What an intrinsic does with its block.  It sees the compiler and its input type, so that it is a tree for each of those.
    A variable that nothing can use has no slot (var.rs [noop]). *)
Inductive prog :=
| PEval (t : tkey) (x : P)
| PFail (e : cerr)
| PFlag (name : option str) (k : option tag -> prog)
| PPeek (k : option nat -> option nat -> prog)
| PSays (t : tkey) (k : prog)
| PAnon (t : tkey) (k : prog)
| PAddsVars (retain : bool) (k : prog)
| PVarsAdded (k : prog)
| PCreate (a : nat) (t : ty) (k : ty * option nat + cerr -> prog)
| PInject (a : nat) (x : str) (t : ty) (k : ty * nat + cerr -> prog)
| POblige (t : option tkey) (k : prog)
| POutput (k : option tkey -> prog)
| PNext (k : builder + cerr -> prog)
| PSupplied (b : builder) (t : option tkey) (k : builder + cerr -> prog)
| PReturns (b : builder) (t : tkey) (k : builder + cerr -> prog)
| PDecouple (b : builder) (k : prog)
| PConcrete (b : builder) (k : argument + cerr -> prog).

(** eng/mod.rs:58-103; flags and arguments in the order they are taken *)
Record ablock := ABlock { k_op : nat; k_in : tkey; k_flags : list tag; k_args : list nat; k_asks : list ask; k_infer : bool; k_adds : bool }.
Definition push (b : ablock) (a : list ask) : ablock :=
  ABlock (k_op b) (k_in b) (k_flags b) (k_args b) (k_asks b ++ a) (k_infer b) (k_adds b).
(** blk.rs:85-94: by name the last of them *)
Fixpoint take_named (x : str) (l : list tag) : option (tag * list tag) :=
  match l with
  | [] => None
  | t :: l => match take_named x l with
              | Some (f, r) => Some (f, t :: r)
              | None => if str_eqb (tg_str t) x then Some (t, l) else None
              end
  end.
Definition take_flag (name : option str) (l : list tag) : option (tag * list tag) :=
  match name with
  | Some x => take_named x l
  | None => match l with [] => None | t :: l => Some (t, l) end
  end.
(** infer.rs:429-461 *)
Definition output_ty (c : comp) (op : nat) : out (option tkey) :=
  match ty_at c op TyGraph.Out_ with
  | Some t => Good (Some t)
  | None =>
      let! n := sure (Locals.op_next g op) in
      match n with
      | Some n => Good (ty_at c n TyGraph.In_)
      | None => let! x := sure (Locals.op_parent g op) in Good (ty_at c x TyGraph.Out_)
      end
  end.
(** blk.rs:149-180 *)
Definition create_var (c : comp) (a : nat) (t : ty) : act (ty * option nat) :=
  match node g a with
  | Some (NVar x) =>
      let! op := sure (Locals.arg_op g a) in
      let! n := sure (Locals.op_next g op) in
      match n with
      | None => say (t, None) []
      | Some n =>
          let! r := sure (Locals.new_var (c_lg c) n (tg_str x) t) in
          match r with
          | inl (Locals.EVar t s) => say (t, Some s) []
          | inl (Locals.EPtr _) => Crash Missing
          | inr _ => fail err_locals [AskVar (tg_str x) t n]
          end
      end
  | Some (NIdent _) | Some (NNum _ _) | Some (NExpr _) | Some (NPound _ _) => fail err_variant []
  | _ => Crash Missing
  end.
(** blk.rs:190-208 *)
Definition inject_var (c : comp) (a : nat) (x : str) (t : ty) : act (ty * nat) :=
  let! r := sure (Locals.new_var (c_lg c) a x t) in
  match r with
  | inl (Locals.EVar t s) => say (t, s) []
  | inl (Locals.EPtr _) => Crash Missing
  | inr _ => fail err_locals [AskVar x t a]
  end.

Fixpoint last_of {X} (l : list X) : option X := match l with [] => None | [x] => Some x | _ :: l => last_of l end.
Definition head_of {X} (l : list X) : option X := match l with [] => None | x :: _ => Some x end.

Definition answer (b : ablock) (r : tkey * P + cerr) : reply (tkey * P) := Reply r (k_asks b) (k_infer b) (k_adds b).
Fixpoint exec (c : comp) (b : ablock) (p : prog) : out (reply (tkey * P)) :=
  match p with
  (* blk.rs:253-263, 280-299 *)
  | PEval t x =>
      Good (answer b match k_flags b with
                     | _ :: _ => inr err_flags
                     | [] => match k_args b with _ :: _ => inr err_args | [] => inl (t, x) end
                     end)
  | PFail e => Good (answer b (inr e))
  | PFlag name k =>
      match take_flag name (k_flags b) with
      | Some (f, r) => exec c (ABlock (k_op b) (k_in b) r (k_args b) (k_asks b) (k_infer b) (k_adds b)) (k (Some f))
      | None => exec c b (k None)
      end
  (* blk.rs:97-104 *)
  | PPeek k => exec c b (k (head_of (k_args b)) (last_of (k_args b)))
  (* blk.rs:58-71, 76-78 *)
  | PSays t k => exec c (push b [AskOutput (k_op b) t]) k
  | PAnon t k => exec c (push b [AskAnon t]) k
  (* blk.rs:117-137; the arguments are a stack, the last one comes first *)
  | PAddsVars retain k =>
      let b := ABlock (k_op b) (k_in b) (k_flags b) (k_args b) (k_asks b) (k_infer b) true in
      exec c (if retain then b else push b (map (AskBreak (k_op b)) (rev (k_args b)))) k
  | PVarsAdded k => exec c (push b [AskSeal (k_op b)]) k
  | PCreate a t k => let! r := create_var c a t in exec c (push b (snd r)) (k (fst r))
  | PInject a x t k => let! r := inject_var c a x t in exec c (push b (snd r)) (k (fst r))
  (* blk.rs:229-236 *)
  | POblige t k =>
      let t := match t with Some t => t | None => k_in b end in
      exec c (push b (map (fun a => AskObliged a t) (rev (k_args b)))) k
  | POutput k =>
      let! r := output_ty c (k_op b) in
      exec c (match r with
              | Some _ => b
              | None => ABlock (k_op b) (k_in b) (k_flags b) (k_args b) (k_asks b) true (k_adds b)
              end) (k r)
  (* arg.rs:474-494 *)
  | PNext k =>
      match k_args b with
      | [] => exec c b (k (inr err_few_args))
      | n :: args =>
          let! a := new_arg c n (Some (k_in b)) in
          exec c (ABlock (k_op b) (k_in b) (k_flags b) args (k_asks b) (k_infer b) (k_adds b)) (k (inl a))
      end
  | PSupplied a t k => let r := supplied a t in exec c (push b (snd r)) (k (fst r))
  | PReturns a t k => let! r := returns a t in exec c (push b (snd r)) (k (fst r))
  | PDecouple a k => let! r := decouple a in exec c (push b r) k
  | PConcrete a k => let! r := concrete c a in exec c b (k r)
  end.
(** mod.rs:460-463, 617-636 *)
Definition run_intrinsic (c : comp) (cmd : nat) (t : tkey) (p : prog) : out (reply (tkey * P)) :=
  let! op := sure (cmd_parent g cmd) in
  let! flags := sure (get_flags g cmd) in
  let! args := sure (get_args g cmd) in
  exec c (ABlock op t flags args [] false false) p.
End Api.

(** What a computation of this file is to the compile loop: an answer, or a panic.  Following pointers without end overflows the stack. *)
Definition shown {X} (r : out X) : option X := match r with Good x => Some x | _ => None end.
