(** The type graph a compilation starts from.  Models ogma/src/eng/graphs/tygraph.rs: build 134-150, apply_ast_types 155-193,
    apply_ast_edges 209-271, apply_ast_edges_defs 273-305, link_def_arg_terms_with_ii 311-347,
    reduce_inferred_sets_given_def_constraints 350-373, set_root_input_ty 375-379, TypesSet::full 834-840; and
    ogma/src/eng/comp/mod.rs: compile_with_seed_vars 39-64 (the type graph part), init_tg 112-119.

    Node indices of the two graphs are the same, so an access to a node of the type graph by an index of the expression
    graph does not fail.  [expect], [assert!] and an index into a vector are [Panic]. *)
From Coq Require Import String List NArith Bool Arith.
From Verif Require Import Model.Base Model.Value Model.Ast Model.Registry Model.AstGraph.
From Verif Require Model.TyGraph.
Import ListNotations.
Set Implicit Arguments.

(** A type up to the equality of the code (types.rs:527-542). *)
Inductive tkey := KNil | KBool | KNum | KStr | KTab | KTabRow | KDef (n : str).
Definition key_of (t : ty) : tkey :=
  match t with
  | TNil => KNil | TBool => KBool | TNum => KNum | TStr => KStr | TTab => KTab | TTabRow => KTabRow
  | TDef d => KDef (td_name d)
  end.
Definition tkey_eqb (a b : tkey) : bool :=
  match a, b with
  | KNil, KNil | KBool, KBool | KNum, KNum | KStr, KStr | KTab, KTab | KTabRow, KTabRow => true
  | KDef x, KDef y => str_eqb x y
  | _, _ => false
  end.
Definition tg_t : Type := TyGraph.tgraph tkey.

(** tygraph.rs:834-840; the order of the set is arbitrary. *)
Definition full (ts : types) : list tkey :=
  fold_left (fun l e => snd (TyGraph.ts_insert tkey_eqb (key_of (ent_ty (snd e))) l)) ts [].

(** tygraph.rs:134-150 *)
Definition build (g : graph) (all : list tkey) : tg_t :=
  {| TyGraph.nodes := map (fun _ => {| TyGraph.input := TyGraph.Inferred all; TyGraph.output := TyGraph.Inferred all |}) (g_nodes g);
     TyGraph.edges := []; TyGraph.anon_tys := [] |}.

(** tygraph.rs:161-168; astgraph.rs [PoundTy::ty] *)
Definition ast_ty (x : anode) : option tkey :=
  match x with
  | NIdent _ => Some KStr
  | NNum _ _ => Some KNum
  | NPound PNil _ => Some KNil
  | NPound PTrue _ | NPound PFalse _ => Some KBool
  | NPound PNewline _ => Some KStr
  | NPound PInput _ => None
  | NOp _ | NFlag _ | NIntrinsic _ _ | NDef _ _ | NVar _ | NExpr _ => None
  end.
(** tygraph.rs:157-181 *)
Fixpoint apply_literals (xs : list anode) (i : nat) (tg : tg_t) : res tg_t :=
  match xs with
  | [] => Ok tg
  | x :: xs =>
      match ast_ty x with
      | None => apply_literals xs (S i) tg
      | Some t =>
          match TyGraph.kn_at tg (i, TyGraph.Out_) with
          | Some (TyGraph.Inferred ts) =>
              if TyGraph.mem tkey_eqb t ts
              then apply_literals xs (S i)
                     (TyGraph.put (TyGraph.put tg (i, TyGraph.In_) TyGraph.Any) (i, TyGraph.Out_) (TyGraph.Known t))
              else Panic
          | _ => Panic
          end
      end
  end.
(** tygraph.rs:183-192 *)
Definition apply_keys (es : list edge) (tg : tg_t) : tg_t :=
  fold_left (fun tg e => match e_rel e with
                         | RKeyed (Some t) => TyGraph.put tg (e_dst e, TyGraph.In_) (TyGraph.Known (key_of t))
                         | _ => tg
                         end) es tg.
Definition apply_ast_types (g : graph) (tg : tg_t) : res tg_t :=
  let? tg := apply_literals (g_nodes g) 0 tg in Ok (apply_keys (g_edges g) tg).

(** ** Edges *)
Definition tedge : Type := (nat * nat * TyGraph.flow)%type.
Definition add_flow (tg : tg_t) (e : tedge) : tg_t := TyGraph.add_edge tg (fst (fst e)) (snd (fst e)) (snd e).
Definition add_flows (tg : tg_t) (es : list tedge) : tg_t := fold_left add_flow es tg.

Definition indices (g : graph) (p : anode -> bool) : list nat :=
  filter (fun n => match node g n with Some x => p x | None => false end) (seq 0 (length (g_nodes g))).
Definition is_expr (x : anode) : bool := match x with NExpr _ => true | _ => false end.
Definition is_op (x : anode) : bool := match x with NOp _ => true | _ => false end.
Definition is_def (x : anode) : bool := match x with NDef _ _ => true | _ => false end.
Definition is_input (x : anode) : bool := match x with NPound PInput _ => true | _ => false end.
Definition at_is (g : graph) (p : anode -> bool) (n : nat) : bool := match node g n with Some x => p x | None => false end.

(** petgraph: the last added edge comes first. *)
Definition neighbors (g : graph) (n : nat) : list nat := map e_dst (edges g n).
(** tygraph.rs:218 *)
Definition op_neighbors (g : graph) (n : nat) : list nat := filter (at_is g is_op) (neighbors g n).

(** tygraph.rs:221-226 *)
Definition first_edges (g : graph) : list tedge :=
  flat_map (fun e => match rev (op_neighbors g e) with o :: _ => [(e, o, TyGraph.II)] | [] => [] end) (indices g is_expr).
(** tygraph.rs:229-234 *)
Definition last_edges (g : graph) : list tedge :=
  flat_map (fun e => match op_neighbors g e with o :: _ => [(o, e, TyGraph.OO)] | [] => [] end) (indices g is_expr).
(** tygraph.rs:237-244 *)
Definition pipe_edges (g : graph) : list tedge :=
  flat_map (fun e => map (fun p => (fst p, snd p, TyGraph.OI)) (combine (skipn 1 (op_neighbors g e)) (op_neighbors g e))) (indices g is_expr).

(** astgraph.rs [ArgNode::op] *)
Definition arg_op (g : graph) (n : nat) : res nat :=
  match find (fun e => is_normal (e_rel e)) (edges_in g n) with Some e => Ok (e_src e) | None => Panic end.
(** tygraph.rs:247-258 *)
Definition input_edges (g : graph) : res (list tedge) :=
  let? l := rmapM (fun n => let? o := arg_op g n in Ok [(o, n, TyGraph.II); (o, n, TyGraph.IO)]) (indices g is_input) in
  Ok (concat l).

Definition is_key (r : rel) : bool := match r with RKeyed _ => true | _ => false end.
(** astgraph.rs [CmdNode::parent] *)
Definition cmd_parent (g : graph) (n : nat) : res nat :=
  match find (fun e => is_key (e_rel e)) (edges_in g n) with Some e => Ok (e_src e) | None => Panic end.
(** astgraph.rs [DefNode::expr] *)
Definition def_expr (g : graph) (n : nat) : res nat := match neighbors g n with x :: _ => Ok x | [] => Panic end.
(** petgraph [find_edge] *)
Definition find_edge (g : graph) (a b : nat) : res edge :=
  match find (fun e => Nat.eqb (e_dst e) b) (edges g a) with Some e => Ok e | None => Panic end.
(** astgraph.rs [OpNode::cmds] *)
Definition cmds (g : graph) (op : nat) : list nat := map e_dst (filter (fun e => is_key (e_rel e)) (edges g op)).

(** astgraph.rs:868-874 [is_callsite_eval] *)
Definition callsite (p : aparam) : bool := match snd p with PExpr => false | _ => true end.
Definition def_params (g : graph) (n : nat) : res (list aparam) := match node g n with Some (NDef _ ps) => Ok ps | _ => Panic end.

(** tygraph.rs:315-339: the op and the arguments to be linked to it *)
Definition link_list (g : graph) (defs : list nat) : res (nat * list nat) :=
  match defs with
  | [] => Panic
  | d :: _ =>
      let? op := cmd_parent g d in
      let? args := get_args g d in
      let? params := rmapM (def_params g) defs in
      let m := match map (@length aparam) params with [] => 0 | n :: ns => fold_left Nat.min ns n end in
      let m := Nat.min m (length args) in
      let is := filter (fun i => forallb (fun ps => match nth_error ps i with Some p => callsite p | None => false end) params) (seq 0 m) in
      let? l := rmapM (fun i => match nth_error args i with Some a => Ok a | None => Panic end) is in
      Ok (op, l)
  end.
(** tygraph.rs:311-347; the flag says whether the graph changed *)
Definition link_defs (g : graph) (defs : list nat) (tg : tg_t) : res (tg_t * bool) :=
  let? r := link_list g defs in
  Ok (TyGraph.link_args tg (fst r) (snd r) false).

(** tygraph.rs:273-305 *)
Definition apply_def (g : graph) (tg : tg_t) (d : nat) : res tg_t :=
  let? op := cmd_parent g d in
  let? x := def_expr g d in
  let tg := add_flows tg [(d, x, TyGraph.II); (x, d, TyGraph.OO)] in
  let? e := find_edge g op d in
  let any := match e_rel e with RKeyed None => true | _ => false end in
  let all := cmds g op in
  let tg := if any then add_flow tg (op, d, TyGraph.II) else tg in
  let tg := if any || (length all =? 1) then add_flow tg (d, op, TyGraph.OO) else tg in
  if forallb (at_is g is_def) all then let? r := link_defs g all tg in Ok (fst r) else Ok tg.
Fixpoint apply_defs (g : graph) (tg : tg_t) (ds : list nat) : res tg_t :=
  match ds with [] => Ok tg | d :: ds => let? tg := apply_def g tg d in apply_defs g tg ds end.

(** tygraph.rs:209-271 *)
Definition apply_ast_edges (g : graph) (tg : tg_t) : res tg_t :=
  let tg := add_flows tg (first_edges g ++ last_edges g ++ pipe_edges g) in
  let? inp := input_edges g in
  apply_defs g (add_flows tg inp) (indices g is_def).

(** tygraph.rs:357-368: [None] if an implementation takes any type *)
Definition op_keys (g : graph) (op : nat) : res (option (list tkey)) :=
  let? es := rmapM (find_edge g op) (cmds g op) in
  Ok (fold_left (fun set e => match set, e_rel e with
                              | Some l, RKeyed (Some t) => Some (snd (TyGraph.ts_insert tkey_eqb (key_of t) l))
                              | _, _ => None
                              end) es (Some [])).
(** tygraph.rs:350-373 *)
Fixpoint reduce (g : graph) (tg : tg_t) (ops : list nat) : res tg_t :=
  match ops with
  | [] => Ok tg
  | o :: ops => let? k := op_keys g o in reduce g (TyGraph.reduce_op tg o k) ops
  end.

(** comp/mod.rs:112-119, after [build] (line 40) *)
Definition init_tg (g : graph) (all : list tkey) (root : tkey) : res tg_t :=
  let? tg := apply_ast_types g (build g all) in
  let? tg := apply_ast_edges g tg in
  let? tg := reduce g tg (indices g is_op) in
  Ok (TyGraph.put tg (0, TyGraph.In_) (TyGraph.Known root)).

Definition to_chg (c : chg) : TyGraph.chg tkey :=
  match c with ObligeInput n t => TyGraph.ObligeInput n (key_of t) | ObligeOutput n t => TyGraph.ObligeOutput n (key_of t) end.

(** comp/mod.rs:39-64: the graphs before the first round of the compile loop; [anon] are types without a name. *)
Definition start (s : defs) (e : expr) (root : tkey) (anon : list tkey) : res (graph * tg_t) :=
  let? r := init s e in
  let? tg := init_tg (fst r) (full (df_types s)) root in
  match TyGraph.apply_chgs tkey_eqb tg (map to_chg (snd r) ++ map (@TyGraph.AnonTy tkey) anon) false with
  | (tg, Ok _) => Ok (fst r, tg)
  | (_, Err e) => Err (100 + e)
  | (_, Panic) => Panic
  end.
