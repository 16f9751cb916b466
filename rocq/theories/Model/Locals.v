(** Scoping of variables.

    Models ogma/src/eng/graphs/locals_graph.rs:1-430 [LocalsGraph] and 503-520 [accrete], and the lookups in
    ogma/src/eng/graphs/astgraph.rs:586-640, 895-960, 1050-1065 it relies on.  The tags of variables are left out.
    A hash map is a list without two entries of the same key; it is iterated in an arbitrary order. *)
From Coq Require Import String List ZArith NArith Bool Arith.
From Verif Require Import Model.Base Model.Value Model.Ast Model.Registry Model.AstGraph.
Import ListNotations.
Set Implicit Arguments.

(** ** The expression graph, as seen from here *)

(** astgraph.rs:712-717, 743-748 *)
Definition is_op (g : graph) (n : nat) : bool := match node g n with Some (NOp _) => true | _ => false end.
Definition is_expr (g : graph) (n : nat) : bool := match node g n with Some (NExpr _) => true | _ => false end.

(** astgraph.rs:586-603 [is_arg_node] *)
Definition is_arg (g : graph) (n : nat) : bool :=
  match node g n with
  | Some (NIdent _) | Some (NNum _ _) | Some (NPound _ _) | Some (NVar _) => true
  | Some (NExpr _) => match edges_in g n with e :: _ => is_op g (e_src e) | [] => false end
  | _ => false
  end.

(** astgraph.rs:627-640 *)
Definition indices (g : graph) : list nat := seq 0 (length (g_nodes g)).
Definition op_nodes (g : graph) : list nat := filter (is_op g) (indices g).
Definition expr_nodes (g : graph) : list nat := filter (is_expr g) (indices g).
Definition arg_nodes (g : graph) : list nat := filter (is_arg g) (indices g).

(** petgraph [neighbors], the last added first *)
Definition neighbours (g : graph) (n : nat) : list nat := map e_dst (edges g n).
Definition ops_rev (g : graph) (e : nat) : list nat := filter (is_op g) (neighbours g e).

Definition expect {A} (o : option A) : res A := match o with Some a => Ok a | None => Panic end.

(** astgraph.rs:902-909 [OpNode::parent] *)
Definition op_parent (g : graph) (o : nat) : res nat :=
  expect (find (is_expr g) (map e_src (filter (fun e => is_normal (e_rel e)) (edges_in g o)))).
Fixpoint take_while (p : nat -> bool) (l : list nat) : list nat :=
  match l with [] => [] | x :: l => if p x then x :: take_while p l else [] end.
Fixpoint skip_while (p : nat -> bool) (l : list nat) : list nat :=
  match l with [] => [] | x :: l' => if p x then skip_while p l' else l end.
Fixpoint last_of (l : list nat) : option nat := match l with [] => None | [x] => Some x | _ :: l => last_of l end.
(** astgraph.rs:912-920 [OpNode::next] *)
Definition op_next (g : graph) (o : nat) : res (option nat) :=
  let? e := op_parent g o in Ok (last_of (take_while (fun n => negb (Nat.eqb n o)) (ops_rev g e))).
(** astgraph.rs:923-931 [OpNode::prev] *)
Definition op_prev (g : graph) (o : nat) : res (option nat) :=
  let? e := op_parent g o in Ok (nth_error (skip_while (fun n => negb (Nat.eqb n o)) (ops_rev g e)) 1).
(** astgraph.rs:959-966 [ArgNode::op] *)
Definition arg_op (g : graph) (a : nat) : res nat :=
  expect (match filter (fun e => is_normal (e_rel e)) (edges_in g a) with e :: _ => Some (e_src e) | [] => None end).
(** astgraph.rs:1057-1064 [ExprNode::first_op] *)
Definition first_op (g : graph) (e : nat) : res nat := expect (last_of (ops_rev g e)).

(** ** The graph of variables *)

(** var.rs:7-20 [Local], [Variable]: a slot with its type, or an argument to use in place of the variable *)
Inductive elocal := EVar (t : ty) (slot : nat) | EPtr (to : nat).

(** locals_graph.rs:13-26: an index into the locals, and the node it was defined at *)
Record local := Local { lo_idx : nat; lo_def : nat }.
Definition lmap : Type := list (str * local).
Record vars := Vars { va_map : lmap; va_sealed : bool }.

(** 7-11, 28: the kind of an edge; [true] is [Flow] *)
Record ledge := LEdge { le_src : nat; le_dst : nat; le_flow : bool }.

(** 58-63 *)
Record lgraph := LGraph { lg_nodes : list vars; lg_edges : list ledge; lg_count : nat; lg_locals : list elocal }.

(** petgraph [update_edge]: replaces the weight of an edge between the two nodes, or adds one *)
Definition joins (a b : nat) (e : ledge) : bool := Nat.eqb (le_src e) a && Nat.eqb (le_dst e) b.
Fixpoint replace_edge (a b : nat) (f : bool) (es : list ledge) : option (list ledge) :=
  match es with
  | [] => None
  | e :: es => if joins a b e then Some (LEdge a b f :: es)
               else match replace_edge a b f es with Some es => Some (e :: es) | None => None end
  end.
Definition update_edge (a b : nat) (f : bool) (es : list ledge) : list ledge :=
  match replace_edge a b f es with Some es => es | None => es ++ [LEdge a b f] end.

(** indexing a graph panics when there is no such node *)
Fixpoint put (l : list vars) (n : nat) (v : vars) : list vars :=
  match l, n with
  | [], _ => []
  | _ :: l, 0 => v :: l
  | x :: l, S n => x :: put l n v
  end.
Definition on_node (lg : lgraph) (n : nat) (f : vars -> vars) : res lgraph :=
  match nth_error (lg_nodes lg) n with
  | Some v => Ok (LGraph (put (lg_nodes lg) n (f v)) (lg_edges lg) (lg_count lg) (lg_locals lg))
  | None => Panic
  end.
Definition set_sealed (v : vars) : vars := Vars (va_map v) true.
Definition with_edge (a b : nat) (f : bool) (lg : lgraph) : lgraph :=
  LGraph (lg_nodes lg) (update_edge a b f (lg_edges lg)) (lg_count lg) (lg_locals lg).

Fixpoint rfold {A B} (f : B -> A -> res B) (l : list A) (b : B) : res B :=
  match l with [] => Ok b | a :: l => let? b := f b a in rfold f l b end.

(** 98-103 *)
Definition edges_for_op (g : graph) (lg : lgraph) (o : nat) : res lgraph :=
  let? n := op_next g o in
  Ok match n with Some n => with_edge n o false (with_edge o n true lg) | None => lg end.
(** 109-121 *)
Definition edges_for_arg (g : graph) (lg : lgraph) (a : nat) : res lgraph :=
  let? lg := on_node lg a set_sealed in
  let? o := arg_op g a in
  let lg := with_edge a o false (with_edge o a true lg) in
  let? p := op_prev g o in
  match p with
  | Some p => Ok (with_edge a p false lg)
  | None => let? e := op_parent g o in Ok (with_edge a e false lg)
  end.
(** 127-131 *)
Definition edges_for_expr (g : graph) (lg : lgraph) (e : nat) : res lgraph :=
  let? f := first_op g e in
  Ok (with_edge f e false (with_edge e f true lg)).

(** 76-137 [build], [init_edges] *)
Definition build (g : graph) : res lgraph :=
  let lg := LGraph (repeat (Vars [] false) (length (g_nodes g))) [] 0 [] in
  let? lg := rfold (edges_for_op g) (op_nodes g) lg in
  let? lg := rfold (edges_for_arg g) (arg_nodes g) lg in
  let? lg := rfold (edges_for_expr g) (expr_nodes g) lg in
  on_node lg 0 set_sealed.

(** ** Flowing *)
Section Flow.
  (** the order in which a hash map is iterated *)
  Variable order : lmap -> lmap.

  (** 503-520 [accrete] *)
  Definition accrete1 (to_idx : nat) (to : lmap) (kv : str * local) : lmap :=
    match alookup str_eqb (fst kv) to with
    | None => ainsert str_eqb (fst kv) (snd kv) to
    | Some tov => if Nat.eqb (lo_def tov) to_idx then to else ainsert str_eqb (fst kv) (snd kv) to
    end.
  Definition accrete_map (from to : lmap) (to_idx : nat) : lmap := fold_left (accrete1 to_idx) (order from) to.

  (** 321-331 [neighbours_flow], [neighbours_seal], the last added edge first *)
  Definition out_edges (lg : lgraph) (n : nat) (flow : bool) : list nat :=
    map le_dst (filter (fun e => Nat.eqb (le_src e) n && Bool.eqb (le_flow e) flow) (rev (lg_edges lg))).

  (** 348-355: the two nodes differ in every graph that is built, so that taking out the map of [to] first makes no difference *)
  Definition accrete (lg : lgraph) (from to : nat) : res lgraph :=
    match nth_error (lg_nodes lg) from with
    | Some f => on_node lg to (fun v => Vars (accrete_map (va_map f) (va_map v) to) (va_sealed v))
    | None => Panic
    end.

  (** Not a result of the code: too little fuel. *)
  Definition no_fuel : nat := 1001.

  (** 333-346: a stack; its top is the head of the list *)
  Definition pushed (lg : lgraph) (n : nat) : list (nat * nat) := rev (map (fun to => (n, to)) (out_edges lg n true)).
  Fixpoint flow_loop (fuel : nat) (lg : lgraph) (stack : list (nat * nat)) : res lgraph :=
    match stack with
    | [] => Ok lg
    | (from, to) :: stack =>
        match fuel with
        | 0 => Err no_fuel
        | S fuel => let? lg := accrete lg from to in flow_loop fuel lg (pushed lg to ++ stack)
        end
    end.
  Definition flow (lg : lgraph) (n : nat) : res lgraph := flow_loop (length (lg_nodes lg)) lg (pushed lg n).

  (** ** Introducing variables *)

  Definition insert_at (lg : lgraph) (n : nat) (x : str) (l : local) : res lgraph :=
    on_node lg n (fun v => Vars (ainsert str_eqb x l (va_map v)) (va_sealed v)).
  Definition push_local (lg : lgraph) (c : nat) (l : elocal) : lgraph :=
    LGraph (lg_nodes lg) (lg_edges lg) c (lg_locals lg ++ [l]).

  (** var.rs:130-145 [SeedVars]: adding variables one after the other *)
  Definition seed_vars (vs : list (str * ty)) : list (str * ty * nat) :=
    fold_left (fun l v => l ++ [(v, length l)]) vs [].
  (** 139-168 [seed] *)
  Fixpoint seed_loop (lg : lgraph) (vs : list (str * ty * nat)) : res lgraph :=
    match vs with
    | [] => Ok lg
    | (x, t, slot) :: vs =>
        let i := length (lg_locals lg) in
        let? lg := insert_at (push_local lg (S (lg_count lg)) (EVar t slot)) 0 x (Local i 0) in
        seed_loop lg vs
    end.
  Definition seed (lg : lgraph) (vs : list (str * ty * nat)) : res lgraph :=
    let? lg := seed_loop lg vs in flow lg 0.

  (** 357-390 [add_new_var], [add_new_lazy] *)
  Definition add_new_var (lg : lgraph) (x : str) (t : ty) (n : nat) : res lgraph :=
    let i := length (lg_locals lg) in
    insert_at (push_local lg (S (lg_count lg)) (EVar t (lg_count lg))) n x (Local i n).
  Definition add_new_lazy (lg : lgraph) (x : str) (to n : nat) : res lgraph :=
    let i := length (lg_locals lg) in
    insert_at (push_local lg (lg_count lg) (EPtr to)) n x (Local i n).

  (** 30-51 [Chg], with the sealing of an expression (409-415 [seal]) as one more. *)
  Inductive lchg :=
  | NewVar (x : str) (t : ty) (n : nat)
  | NewLazy (x : str) (to n : nat)
  | Seal (op : nat)
  | BreakEdge (op arg : nat)
  | SealExpr (e : nat).

  (** petgraph [find_edge], [remove_edge]: of several edges between two nodes the one added last; there are never several *)
  Fixpoint remove_edge (a b : nat) (es : list ledge) : list ledge :=
    match es with
    | [] => []
    | e :: es => if joins a b e then es else e :: remove_edge a b es
    end.

  (** 274-319 [apply_chg]; the reply says whether the graph was altered. *)
  Definition apply_chg (lg : lgraph) (c : lchg) : res (bool * lgraph) :=
    match c with
    | NewVar x t n => let? lg := add_new_var lg x t n in let? lg := flow lg n in Ok (true, lg)
    | NewLazy x to n => let? lg := add_new_lazy lg x to n in let? lg := flow lg n in Ok (true, lg)
    | Seal n =>
        match nth_error (lg_nodes lg) n with
        | Some v => if va_sealed v then Ok (false, lg) else let? lg := on_node lg n set_sealed in Ok (true, lg)
        | None => Panic
        end
    | BreakEdge op arg =>
        if existsb (joins arg op) (lg_edges lg)
        then Ok (true, LGraph (lg_nodes lg) (remove_edge arg op (lg_edges lg)) (lg_count lg) (lg_locals lg))
        else Ok (false, lg)
    | SealExpr n => let? lg := on_node lg n set_sealed in Ok (true, lg)
    end.

  Definition apply_chgs (lg : lgraph) (cs : list lchg) : res lgraph :=
    rfold (fun lg c => let? r := apply_chg lg c in Ok (snd r)) cs lg.
End Flow.

(** ** Asking *)

(** 392-407 [sealed].  The code keeps a queue and checks each node as it is taken; all the nodes that are as many
    steps away come together, so that the queue is modelled one such level at a time. *)
Fixpoint check_level (lg : lgraph) (q : list nat) : res bool :=
  match q with
  | [] => Ok true
  | n :: q =>
      match nth_error (lg_nodes lg) n with
      | None => Panic
      | Some v => if va_sealed v then check_level lg q else Ok false
      end
  end.
Fixpoint sealed_loop (fuel : nat) (lg : lgraph) (q : list nat) : res bool :=
  match q with
  | [] => Ok true
  | _ :: _ =>
      match fuel with
      | 0 => Err no_fuel
      | S fuel => let? b := check_level lg q in
                  if b then sealed_loop fuel lg (flat_map (fun n => out_edges lg n false) q) else Ok false
      end
  end.
Definition sealed (lg : lgraph) (n : nat) : res bool := sealed_loop (S (length (lg_nodes lg))) lg [n].

(** 177-182 [get_] *)
Definition get_ (lg : lgraph) (n : nat) (x : str) : res (option elocal) :=
  match nth_error (lg_nodes lg) n with
  | None => Panic
  | Some v =>
      match alookup str_eqb x (va_map v) with
      | None => Ok None
      | Some l => match nth_error (lg_locals lg) (lo_idx l) with Some e => Ok (Some e) | None => Panic end
      end
  end.
(** 188-196 [get]: error 1 not final yet, 2 no such variable *)
Definition get (lg : lgraph) (n : nat) (x : str) : res elocal :=
  let? s := sealed lg n in
  if s then let? o := get_ lg n x in match o with Some l => Ok l | None => Err 2 end else Err 1.
(** 203-208 [get_opt] *)
Definition get_opt (lg : lgraph) (n : nat) (x : str) : res (bool * option elocal) :=
  let? s := sealed lg n in
  if s then let? o := get_ lg n x in Ok (true, o) else Ok (false, None).

(** 222-244 [new_var]: the variable, or the change to make *)
Definition new_var (lg : lgraph) (n : nat) (x : str) (t : ty) : res (elocal + lchg) :=
  match nth_error (lg_nodes lg) n with
  | None => Panic
  | Some v =>
      match alookup str_eqb x (va_map v) with
      | Some l =>
          if Nat.eqb (lo_def l) n then
            match nth_error (lg_locals lg) (lo_idx l) with
            | Some (EVar t s) => Ok (inl (EVar t s))
            | _ => Panic
            end
          else Ok (inr (NewVar x t n))
      | None => Ok (inr (NewVar x t n))
      end
  end.
(** 255-277 [new_lazy] *)
Definition new_lazy (lg : lgraph) (n : nat) (x : str) (to : nat) : res (unit + lchg) :=
  match nth_error (lg_nodes lg) n with
  | None => Panic
  | Some v =>
      match alookup str_eqb x (va_map v) with
      | Some l =>
          if Nat.eqb (lo_def l) n then
            match nth_error (lg_locals lg) (lo_idx l) with
            | Some (EPtr _) => Ok (inl tt)
            | _ => Panic
            end
          else Ok (inr (NewLazy x to n))
      | None => Ok (inr (NewLazy x to n))
      end
  end.
