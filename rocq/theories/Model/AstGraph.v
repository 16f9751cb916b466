(** The expression graph. *)
From Coq Require Import String List ZArith NArith Bool Arith.
From Verif Require Import Model.Base Model.Value Model.Tuple Model.Ast Model.Registry.
Import ListNotations.
Set Implicit Arguments.

(** ogma/src/eng/graphs/astgraph.rs:41-52 [PoundTy] *)
Inductive pound := PNil | PTrue | PFalse | PInput | PNewline.

(** astgraph.rs:71-87 [Parameter], [ParameterTy] *)
Inductive paramty := PUnspecified | PSpecified (t : ty) | PExpr.
Definition aparam : Type := (str * paramty)%type.

(** astgraph.rs:21-39 [AstNode]; the tag of the whole block is left out. *)
Inductive anode :=
| NOp (op : tag)
| NIntrinsic (op : tag) (f : intr)
| NDef (e : tag) (params : list aparam)
| NFlag (t : tag)
| NIdent (t : tag)
| NNum (z : Z) (t : tag)
| NPound (p : pound) (t : tag)
| NVar (t : tag)
| NExpr (t : tag).

(** astgraph.rs:63-69 [Relation]; the position is a u8. *)
Inductive rel := RNormal | RKeyed (key : option ty) | RTerm (i : N).
Record edge := Edge { e_src : nat; e_dst : nat; e_rel : rel }.

(** petgraph [StableGraph] without removals: an index is a position; edges in the order they were added. *)
Record graph := Graph { g_nodes : list anode; g_edges : list edge }.

Definition add_node (g : graph) (x : anode) : nat * graph :=
  (length (g_nodes g), Graph (g_nodes g ++ [x]) (g_edges g)).
Definition add_edge (g : graph) (a b : nat) (r : rel) : graph := Graph (g_nodes g) (g_edges g ++ [Edge a b r]).
(** petgraph: the last added edge comes first. *)
Definition edges (g : graph) (n : nat) : list edge := filter (fun e => Nat.eqb (e_src e) n) (rev (g_edges g)).
Definition edges_in (g : graph) (n : nat) : list edge := filter (fun e => Nat.eqb (e_dst e) n) (rev (g_edges g)).
Definition node (g : graph) (n : nat) : option anode := nth_error (g_nodes g) n.

Definition is_normal (r : rel) : bool := match r with RNormal => true | _ => false end.
Definition is_flag (g : graph) (n : nat) : bool := match node g n with Some (NFlag _) => true | _ => false end.

(** tygraph.rs [Chg], as far as produced here. *)
Inductive chg := ObligeInput (n : nat) (t : ty) | ObligeOutput (n : nat) (t : ty).

Section Graph.
  Variable s : defs.

  (** astgraph.rs:407-410 [map_ty_tag] *)
  Definition map_ty_tag (t : option tag) : res (option ty) :=
    match t with
    | None => Ok None
    | Some t => match get_type (df_types s) (tg_str t) with Some t => Ok (Some t) | None => Err 4 end
    end.

  (** astgraph.rs:205-225: the node of a term *)
  Definition term_node (t : term) : res anode :=
    match t with
    | TFlag t => Ok (NFlag t)
    | TArg (AIdent t) => Ok (NIdent t)
    | TArg (ANum z t) => Ok (NNum z t)
    | TArg (APound 110%N t) => Ok (NPound PNil t)
    | TArg (APound 116%N t) => Ok (NPound PTrue t)
    | TArg (APound 102%N t) => Ok (NPound PFalse t)
    | TArg (APound 98%N t) => Ok (NPound PNewline t)
    | TArg (APound 105%N t) => Ok (NPound PInput t)
    | TArg (APound _ _) => Err 7
    | TArg (AVar t) => Ok (NVar t)
    | TArg (AExpr e) => Ok (NExpr (ex_tag e))
    end.

  (** astgraph.rs:149-155: expressions still to be processed, first in first out *)
  Definition qitem : Type := (nat * list block * option ty)%type.

  (** astgraph.rs:197-239 *)
  Fixpoint add_terms (g : graph) (op : nat) (ts : list term) : res (graph * list qitem) :=
    match ts with
    | [] => Ok (g, [])
    | t :: ts =>
        let? nd := term_node t in
        let (n, g) := add_node g nd in
        let g := add_edge g op n RNormal in
        let? here := match t with
                     | TArg (AExpr e) => let? o := map_ty_tag (ex_out e) in Ok [(n, ex_blocks e, o)]
                     | _ => Ok []
                     end in
        let? r := add_terms g op ts in
        Ok (fst r, here ++ snd r)
    end.

  Definition opt_chg (f : ty -> chg) (t : option ty) : list chg := match t with Some t => [f t] | None => [] end.

  (** astgraph.rs:173-240; a path panics ([todo!]). *)
  Fixpoint add_blocks (g : graph) (root : nat) (bs : list block) : res (graph * list qitem * list chg) :=
    match bs with
    | [] => Ok (g, [], [])
    | b :: bs =>
        let? op := blk_op b in
        let (n, g) := add_node g (NOp op) in
        let g := add_edge g root n RNormal in
        let? i := map_ty_tag (blk_in b) in
        let? o := map_ty_tag (blk_out b) in
        let? r := add_terms g n (blk_terms b) in
        let? r2 := add_blocks (fst r) root bs in
        Ok (fst (fst r2), snd r ++ snd (fst r2), opt_chg (ObligeInput n) i ++ opt_chg (ObligeOutput n) o ++ snd r2)
    end.

  (** Not a result of the code: too little fuel. *)
  Definition no_fuel : nat := 1000.

  (** astgraph.rs:162-242 *)
  Fixpoint flat_loop (fuel : nat) (g : graph) (q : list qitem) (cs : list chg) : res (graph * list chg) :=
    match q with
    | [] => Ok (g, cs)
    | (root, bs, o) :: q =>
        match fuel with
        | 0 => Err no_fuel
        | S fuel =>
            let? r := add_blocks g root bs in
            flat_loop fuel (fst (fst r)) (q ++ snd (fst r)) (cs ++ opt_chg (ObligeOutput root) o ++ snd r)
        end
    end.

  (** astgraph.rs:127-247 [flatten_expr] *)
  Definition flatten_expr (g : graph) (e : expr) (cs : list chg) : res (nat * graph * list chg) :=
    let (root, g) := add_node g (NExpr (ex_tag e)) in
    let? o := map_ty_tag (ex_out e) in
    let? r := flat_loop (size_expr e) g [(root, ex_blocks e, o)] cs in
    Ok (root, fst r, snd r).

  (** ** Expanding definitions *)

  (** astgraph.rs:412-416, 425-427 [RecursionDetection]: which definition a node stands for *)
  Definition ids : Type := list (nat * str).
  Definition id_of (m : ids) (n : nat) : option str := alookup Nat.eqb n m.

  (** astgraph.rs:449-466 [parent_ids]: the definitions on some path from the root to the op.  Every node is below the
      root, and an edge leads to a later node, so the paths are walked backwards from the op. *)
  Fixpoint before (fuel : nat) (g : graph) (n : nat) : list nat :=
    n :: match fuel with
         | 0 => []
         | S fuel => flat_map (fun e => before fuel g (e_src e)) (edges_in g n)
         end.
  Definition detect (m : ids) (g : graph) (op : nat) (id : str) : bool :=
    existsb (fun n => match id_of m n with Some i => str_eqb i id | None => false end) (before op g op).

  (** astgraph.rs:849-866 [Parameter::from_ast] *)
  Definition param_from_ast (p : param) : res aparam :=
    match snd p with
    | None => Ok (fst p, PUnspecified)
    | Some t => if str_eqb t (lit "Expr") then Ok (fst p, PExpr)
                else match get_type (df_types s) t with Some t => Ok (fst p, PSpecified t) | None => Err 4 end
    end.

  (** types.rs:109-123 [Display for Type] *)
  Definition show_ty (t : ty) : str :=
    match t with TNum => lit "Number" | TStr => lit "String" | t => tyname t end.

  (** astgraph.rs:357-390: the terms of the op, in order of position *)
  Definition op_terms (g : graph) (op : nat) (flags : bool) : list nat :=
    rev (map e_dst (filter (fun e => is_normal (e_rel e) && Bool.eqb (is_flag g (e_dst e)) flags) (edges g op))).
  Definition link_terms (g : graph) (ts : list nat) (cmd : nat) : graph :=
    fold_left (fun g it => add_edge g (snd it) cmd (RTerm (N.of_nat (fst it) mod 256))) (combine (seq 0 (length ts)) ts) g.

  Definition iter_op (k : keys) : list (option ty * impl) :=
    map (fun e => (Some (fst e), snd e)) (k_tys k) ++ match k_any k with Some i => [(None, i)] | None => [] end.

  Record xstate := XState { x_g : graph; x_chgs : list chg; x_ids : ids }.

  (** astgraph.rs:309-392: one implementation of the op *)
  Definition expand_entry (op : nat) (t : tag) (st : xstate) (e : option ty * impl) : res (bool * xstate) :=
    let (key, i) := e in
    let link (cmd : nat) (g : graph) (cs : list chg) (m : ids) :=
      let g := add_edge g op cmd (RKeyed key) in
      let g := link_terms g (op_terms g op true) cmd in
      let g := link_terms g (op_terms g op false) cmd in
      Ok (true, XState g cs m) in
    match i with
    | IIntrinsic _ f =>
        let (cmd, g) := add_node (x_g st) (NIntrinsic t f) in
        link cmd g (x_chgs st) (x_ids st)
    | IDef d =>
        let id := match key with Some ty => Some (tg_str t ++ lit ":" ++ show_ty ty) | None => None end in
        if match id with Some id => detect (x_ids st) (x_g st) op id | None => false end then Ok (false, st)
        else
          let? ps := rmapM param_from_ast (d_params d) in
          let (cmd, g) := add_node (x_g st) (NDef (ex_tag (d_expr d)) ps) in
          let? r := flatten_expr g (d_expr d) (x_chgs st) in
          let g := add_edge (snd (fst r)) cmd (fst (fst r)) RNormal in
          link cmd g (snd r) (match id with Some id => (cmd, id) :: x_ids st | None => x_ids st end)
    end.
  Fixpoint expand_entries (op : nat) (t : tag) (st : xstate) (es : list (option ty * impl)) : res (bool * xstate) :=
    match es with
    | [] => Ok (false, st)
    | e :: es =>
        let? r := expand_entry op t st e in
        let? r2 := expand_entries op t (snd r) es in
        Ok (fst r || fst r2, snd r2)
    end.

  (** astgraph.rs:277-396 [expand_def]; error 2: no such op *)
  Definition expand_def (op : nat) (st : xstate) : res (bool * xstate) :=
    match node (x_g st) op with
    | Some (NOp t) =>
        match alookup str_eqb (tg_str t) (df_impls s) with
        | None => Err 2
        | Some k => expand_entries op t st (iter_op k)
        end
    | _ => Panic
    end.

  (** astgraph.rs:398-402 [op_expanded] *)
  Definition op_expanded (g : graph) (op : nat) : bool :=
    existsb (fun e => match e_rel e with RKeyed _ => true | _ => false end) (edges g op).
  Definition unexpanded (g : graph) : list nat :=
    filter (fun n => match node g n with Some (NOp _) => negb (op_expanded g n) | _ => false end) (seq 0 (length (g_nodes g))).
  Fixpoint expand_ops (ops : list nat) (st : xstate) : res (bool * xstate) :=
    match ops with
    | [] => Ok (false, st)
    | op :: ops =>
        let? r := expand_def op st in
        let? r2 := expand_ops ops (snd r) in
        Ok (fst r || fst r2, snd r2)
    end.
  (** astgraph.rs:249-275 [expand_defs] *)
  Definition expand_defs (st : xstate) : res (bool * xstate) := expand_ops (unexpanded (x_g st)) st.

  (** astgraph.rs:89, 110-117: error 8 when [LOOPLIM] rounds have all expanded something; [more] is the number of
      rounds still allowed *)
  Definition LOOPLIM : nat := 128.
  Fixpoint expand_loop (more : nat) (st : xstate) : res xstate :=
    let? r := expand_defs st in
    if fst r then match more with 0 => Err 8 | S more => expand_loop more (snd r) end
    else Ok (snd r).

  (** astgraph.rs:100-122 [init] *)
  Definition init (e : expr) : res (graph * list chg) :=
    let? r := flatten_expr (Graph [] []) e [] in
    let? st := expand_loop LOOPLIM (XState (snd (fst r)) (snd r) []) in
    Ok (x_g st, x_chgs st).
End Graph.

(** ** Lookup *)

(** astgraph.rs:520-541 [get_impl] *)
Fixpoint pick_impl (t : ty) (es : list edge) (fallback : option nat) : option nat :=
  match es with
  | [] => fallback
  | e :: es => match e_rel e with
               | RKeyed None => pick_impl t es (Some (e_dst e))
               | RKeyed (Some t') => if ty_eqb t' t then Some (e_dst e) else pick_impl t es fallback
               | _ => pick_impl t es fallback
               end
  end.
Definition graph_impl (g : graph) (op : nat) (t : ty) : option nat := pick_impl t (edges g op) None.

(** astgraph.rs:556-582 [get_terms]: positions are filled, the vector grows as needed; a gap panics. *)
Fixpoint set_at (v : list (option nat)) (i : nat) (n : nat) : list (option nat) :=
  match v, i with
  | [], 0 => [Some n]
  | [], S i => None :: set_at [] i n
  | _ :: v, 0 => Some n :: v
  | x :: v, S i => x :: set_at v i n
  end.
Definition get_terms (g : graph) (cmd : nat) (flag : bool) : res (list nat) :=
  let es := filter (fun e => Bool.eqb flag (is_flag g (e_src e))) (edges_in g cmd) in
  let v := fold_left (fun v e => match e_rel e with RTerm i => set_at v (N.to_nat i) (e_src e) | _ => v end) es [] in
  rmapM (fun x => match x with Some n => Ok n | None => Panic end) v.

(** astgraph.rs:543-554 *)
Definition get_args (g : graph) (cmd : nat) : res (list nat) := get_terms g cmd false.
Definition get_flags (g : graph) (cmd : nat) : res (list tag) :=
  let? l := get_terms g cmd true in
  rmapM (fun n => match node g n with Some (NFlag t) => Ok t | _ => Panic end) l.

(** astgraph.rs:607-625 [path_from_root]: follows the last added edge that is not a term edge. *)
Definition parent_edge (g : graph) (n : nat) : option edge :=
  find (fun e => match e_rel e with RTerm _ => false | _ => true end) (edges_in g n).
Fixpoint climb (fuel : nat) (g : graph) (n : nat) (acc : list nat) : res (list nat) :=
  match n with
  | 0 => Ok acc
  | _ => match parent_edge g n with
         | None => Panic
         | Some e => match fuel with 0 => Err no_fuel | S fuel => climb fuel g (e_src e) (e_src e :: acc) end
         end
  end.
Definition path_from_root (g : graph) (n : nat) : res (list nat) := climb n g n [n].
