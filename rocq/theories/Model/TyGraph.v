(** The type graph and its resolution.  Models ogma/src/eng/graphs/tygraph.rs: Node, Knowledge, TypesSet, Flow, Chg 12-57,
    link_def_arg_terms_with_ii 311-347, reduce_inferred_sets_given_def_constraints 350-373,
    flow_types 382-467, intersect_inferred_sets 473-531, upgrade_singleton_inferred_sets 534-546, apply_chg 550-624,
    Knowledge 668-811, TypesSet 827-917 and 947-951; and ogma/src/eng/comp/resolve_tg.rs: resolve_tg 6-21, apply_graph_chgs 151-171 (the
    type graph part).

    [T] is the set of types up to the equality of the code (types.rs:527-542 compares definitions by name), so [eqb] decides
    equality.  A hash set is a list without repetition in an arbitrary order.  A node is a position, an edge index is a
    position in the list of edges (edges are never removed after the graph is built).  [todo!] is [Panic]. *)
From Coq Require Import List Bool Arith.
From Verif Require Import Model.Base.
Import ListNotations.
Set Implicit Arguments.

(** tygraph.rs:17-23. *)
Inductive kn T := Any | Known (t : T) | Obliged (t : T) | Inferred (ts : list T).
Arguments Any {T}.

(** tygraph.rs:28-38. *)
Inductive flow := II | OI | OO | IO.

(** One of the two pieces of knowledge of a node. *)
Inductive side := In_ | Out_.
Definition slot := (nat * side)%type.
Definition side_eqb (a b : side) := match a, b with In_, In_ | Out_, Out_ => true | _, _ => false end.
Definition flow_eqb (a b : flow) := match a, b with II, II | OI, OI | OO, OO | IO, IO => true | _, _ => false end.

Record node T := { input : kn T; output : kn T }.
Record edge := { e_from : nat; e_to : nat; e_flow : flow }.
Record tgraph T := { nodes : list (node T); edges : list edge; anon_tys : list T }.

(** tygraph.rs:41-57. *)
Inductive chg T :=
  | KnownInput (n : nat) (t : T) | ObligeInput (n : nat) (t : T) | RemoveInput (n : nat) (t : T) | AnyInput (n : nat)
  | KnownOutput (n : nat) (t : T) | ObligeOutput (n : nat) (t : T) | RemoveOutput (n : nat) (t : T)
  | AddEdge (src dst : nat) (f : flow) | AnonTy (t : T).
Arguments AnyInput {T}. Arguments AddEdge {T}.

Section graph.
Variables (T : Type) (eqb : T -> T -> bool).

(** ** TypesSet 827-917 *)
Definition mem (t : T) (l : list T) := existsb (eqb t) l.
Definition subset (a b : list T) := forallb (fun t => mem t b) a.
Definition set_eqb (a b : list T) := (length a =? length b) && subset a b.
Definition is_single (l : list T) := length l =? 1.
Definition only (l : list T) := match l with [t] => Some t | _ => None end.
Definition disjoint (a b : list T) := forallb (fun t => negb (mem t b)) a.
Definition intersection (a b : list T) := if set_eqb a b then a else filter (fun t => mem t b) a.
Definition ts_insert (t : T) (l : list T) : bool * list T := if mem t l then (false, l) else (true, t :: l).
Definition ts_remove (t : T) (l : list T) : bool * list T := (mem t l, filter (fun x => negb (eqb t x)) l).

(** ** Knowledge *)
(** tygraph.rs:670-676. *)
Definition has_ty (k : kn T) : bool :=
  match k with Known _ | Obliged _ => true | Inferred ts => is_single ts | Any => false end.
(** tygraph.rs:680-687. *)
Definition kn_ty (k : kn T) : option T := match k with Known t | Obliged t => Some t | Inferred ts => only ts | Any => None end.
(** tygraph.rs:690-692. *)
Definition is_multiple (k : kn T) : bool := match k with Inferred ts => 1 <? length ts | _ => false end.
(** tygraph.rs:704-706. *)
Definition is_any (k : kn T) : bool := match k with Any => true | _ => false end.
(** the derived equality, tygraph.rs:17. *)
Definition kn_eqb (a b : kn T) : bool :=
  match a, b with
  | Any, Any => true
  | Known x, Known y | Obliged x, Obliged y => eqb x y
  | Inferred x, Inferred y => set_eqb x y
  | _, _ => false
  end.
(** tygraph.rs:730-736. *)
Definition rm_inferred (t : T) (k : kn T) : bool * kn T :=
  match k with Inferred ts => let (c, ts') := ts_remove t ts in (c, Inferred ts') | _ => (false, k) end.

(** tygraph.rs:745-810, arms in order.  Errors: 1 ConflictingKnown, 2 UnmatchedObligation, 3 UnmatchedInferred,
    4 OverpoweringInferred. *)
Definition can_flow (self into : kn T) : res unit :=
  match self, into with
  | Known _, Any => Ok tt
  | Known t1, Known t2 => if eqb t1 t2 then Ok tt else Err 1
  | Known t1, Obliged t2 => if eqb t1 t2 then Ok tt else Err 2
  | Known t1, Inferred ts => if mem t1 ts then Ok tt else Err 3
  | Obliged _, Any => Ok tt
  | Obliged t1, Known t2 => if eqb t1 t2 then Ok tt else Panic
  | Obliged t1, Obliged t2 => if eqb t1 t2 then Ok tt else Err 2
  | Obliged t1, Inferred ts => if mem t1 ts then Ok tt else Err 3
  | Inferred _, Any => Ok tt
  | Inferred a, Inferred b => if set_eqb a b then Ok tt else if disjoint a b then Err 3 else Panic
  | Inferred ts, Known t2 | Inferred ts, Obliged t2 => if mem t2 ts then Err 4 else Panic
  | Any, Any | Any, Inferred _ => Ok tt
  | Any, Known _ | Any, Obliged _ => Panic
  end.

(** ** Graph access *)
Definition side_of (s : side) (n : node T) : kn T := match s with In_ => input n | Out_ => output n end.
Definition put_side (s : side) (k : kn T) (n : node T) : node T :=
  match s with In_ => {| input := k; output := output n |} | Out_ => {| input := input n; output := k |} end.
Definition kn_at (g : tgraph T) (s : slot) : option (kn T) :=
  match nth_error (nodes g) (fst s) with Some n => Some (side_of (snd s) n) | None => None end.
Fixpoint upd {A} (l : list A) (i : nat) (f : A -> A) : list A :=
  match l, i with [], _ => [] | x :: r, 0 => f x :: r | x :: r, S i => x :: upd r i f end.
Definition put (g : tgraph T) (s : slot) (k : kn T) : tgraph T :=
  {| nodes := upd (nodes g) (fst s) (put_side (snd s) k); edges := edges g; anon_tys := anon_tys g |}.

Definition src_slot (e : edge) : slot := (e_from e, match e_flow e with II | IO => In_ | OI | OO => Out_ end).
Definition dst_slot (e : edge) : slot := (e_to e, match e_flow e with II | OI => In_ | IO | OO => Out_ end).

(** ** flow_types 382-467 *)
(** What one edge does: nothing, an update of the receiving or of the sending side, a conflict.  The four forward arms
    419-460 are one: the side that is read and the side that is written depend on the kind of the edge alone. *)
Inductive effect := Stay | Forward | Back | Conflict (e : nat) | Todo.
Definition guard (r : res unit) (x : effect) : effect := match r with Ok _ => x | Err e => Conflict e | Panic => Todo end.
Definition fixed_kn (k : kn T) : bool := match k with Known _ | Obliged _ => true | _ => false end.
Definition edge_effect (f : flow) (from to : kn T) : effect :=
  if has_ty from then guard (can_flow from to) Forward
  else match f with
       | II => if fixed_kn to then guard (can_flow to from) Back
               else if is_any from then guard (can_flow from to) Forward
               else Stay
       | _ => Stay
       end.

(** The state: the graph and the indices of the edges that have flowed. *)
Definition state := (tgraph T * list nat)%type.

(** 399-464, the loop over the edges that have not flowed; the graph keeps what was done before an error. *)
Fixpoint flow_loop (es : list nat) (s : state) (chgd : bool) : state * res bool :=
  match es with
  | [] => (s, Ok chgd)
  | i :: rest =>
    let g := fst s in
    match nth_error (edges g) i with
    | None => (s, Panic)
    | Some e =>
      match kn_at g (src_slot e), kn_at g (dst_slot e) with
      | Some from, Some to =>
        match edge_effect (e_flow e) from to with
        | Stay => flow_loop rest s chgd
        | Forward => flow_loop rest (put g (dst_slot e) from, i :: snd s) true
        | Back => flow_loop rest (put g (src_slot e) to, i :: snd s) true
        | Conflict c => (s, Err c)
        | Todo => (s, Panic)
        end
      | _, _ => (s, Panic)
      end
    end
  end.

Definition pending (s : state) : list nat :=
  filter (fun i => negb (existsb (Nat.eqb i) (snd s))) (seq 0 (length (edges (fst s)))).
Definition flow_types (s : state) : state * res bool := flow_loop (pending s) s false.

(** ** intersect_inferred_sets 473-531 *)
(** 474-481. *)
Definition int (a b : kn T) : option (list T) :=
  match a, b with
  | Inferred a, Inferred b => let i := intersection a b in if set_eqb i a then None else Some i
  | _, _ => None
  end.
Fixpoint intersect_loop (es : list nat) (g : tgraph T) (chgd : bool) : tgraph T * res bool :=
  match es with
  | [] => (g, Ok chgd)
  | i :: rest =>
    match nth_error (edges g) i with
    | None => (g, Panic)
    | Some e =>
      match kn_at g (src_slot e), kn_at g (dst_slot e) with
      | Some from, Some to =>
        match int from to with
        | Some ts => intersect_loop rest (put (put g (src_slot e) (Inferred ts)) (dst_slot e) (Inferred ts)) true
        | None => intersect_loop rest g chgd
        end
      | _, _ => (g, Panic)
      end
    end
  end.
Definition intersect_inferred_sets (s : state) : state * res bool :=
  let (g, r) := intersect_loop (pending s) (fst s) false in ((g, snd s), r).

(** ** upgrade_singleton_inferred_sets 534-546 *)
Definition upgrade_kn (k : kn T) : kn T := match k with Inferred [t] => Obliged t | _ => k end.
Definition map_kn (f : kn T -> kn T) (g : tgraph T) : tgraph T :=
  {| nodes := map (fun n => {| input := f (input n); output := f (output n) |}) (nodes g);
     edges := edges g; anon_tys := anon_tys g |}.
Definition upgrade (s : state) : state := (map_kn upgrade_kn (fst s), snd s).

(** ** apply_chg 550-624 *)
(** 553-560. *)
Definition set_kn (k exp : kn T) : res (bool * kn T) :=
  if kn_eqb k exp then Ok (false, k) else let? _ := can_flow exp k in Ok (true, exp).
Definition at_slot (g : tgraph T) (s : slot) (f : kn T -> res (bool * kn T)) : tgraph T * res bool :=
  match kn_at g s with
  | None => (g, Ok false)
  | Some k => match f k with Ok (c, k') => (put g s k', Ok c) | Err e => (g, Err e) | Panic => (g, Panic) end
  end.
(** Does an edge with these ends and this kind exist (596-606)? *)
Definition has_edge (g : tgraph T) (src dst : nat) (f : flow) : bool :=
  existsb (fun e => (e_from e =? src) && (e_to e =? dst) && flow_eqb (e_flow e) f) (edges g).
Definition add_edge (g : tgraph T) (src dst : nat) (f : flow) : tgraph T :=
  {| nodes := nodes g; edges := edges g ++ [{| e_from := src; e_to := dst; e_flow := f |}]; anon_tys := anon_tys g |}.
Definition insert_kn (t : T) (k : kn T) : bool * kn T :=
  match k with Inferred ts => let (c, ts') := ts_insert t ts in (c, Inferred ts') | _ => (false, k) end.
Definition apply_chg (g : tgraph T) (c : chg T) : tgraph T * res bool :=
  match c with
  | KnownInput n t => at_slot g (n, In_) (fun k => set_kn k (Known t))
  | ObligeInput n t => at_slot g (n, In_) (fun k => set_kn k (Obliged t))
  | RemoveInput n t => at_slot g (n, In_) (fun k => Ok (rm_inferred t k))
  | AnyInput n => match kn_at g (n, In_) with
                  | None => (g, Panic)
                  | Some k => match kn_ty k with
                              | None => at_slot g (n, In_) (fun k => set_kn k Any)
                              | Some _ => (g, Ok false)
                              end
                  end
  | KnownOutput n t => at_slot g (n, Out_) (fun k => set_kn k (Known t))
  | ObligeOutput n t => at_slot g (n, Out_) (fun k => set_kn k (Obliged t))
  | RemoveOutput n t => at_slot g (n, Out_) (fun k => Ok (rm_inferred t k))
  | AddEdge src dst f =>
      if has_edge g src dst f then (g, Ok false)
      else if (src <? length (nodes g)) && (dst <? length (nodes g)) then (add_edge g src dst f, Ok true)
      else (g, Panic)
  | AnonTy t =>
      ({| nodes := nodes (map_kn (fun k => snd (insert_kn t k)) g); edges := edges g;
          anon_tys := snd (ts_insert t (anon_tys g)) |},
       Ok (existsb (fun n => fst (insert_kn t (input n)) || fst (insert_kn t (output n))) (nodes g)))
  end.

(** ** link_def_arg_terms_with_ii 311-347: the pairs of op and argument whose parameter is evaluated at the call *)
Definition joined (g : tgraph T) (src dst : nat) : bool := existsb (fun e => (e_from e =? src) && (e_to e =? dst)) (edges g).
Fixpoint link_args (g : tgraph T) (op : nat) (args : list nat) (chgd : bool) : tgraph T * bool :=
  match args with
  | [] => (g, chgd)
  | a :: rest => if joined g op a then link_args g op rest chgd else link_args (add_edge g op a II) op rest true
  end.

(** 350-373: the types some implementation of the op is keyed on; [None] if one is for any type. *)
Definition reduce_op (g : tgraph T) (op : nat) (keys : option (list T)) : tgraph T :=
  match kn_at g (op, In_), keys with
  | Some k, Some ts => if is_multiple k then put g (op, In_) (Inferred ts) else g
  | _, _ => g
  end.

(** ** resolve_tg.rs:6-21; [None] is out of fuel *)
Fixpoint resolve_tg (fuel : nat) (s : state) : option (state * res unit) :=
  match fuel with
  | 0 => None
  | S fuel =>
    match intersect_inferred_sets s with
    | (s1, Ok _) =>
      match flow_types (upgrade s1) with
      | (s2, Ok true) => resolve_tg fuel s2
      | (s2, Ok false) => Some (s2, Ok tt)
      | (s2, Err e) => Some (s2, Err e)
      | (s2, Panic) => Some (s2, Panic)
      end
    | (s1, Err e) => Some (s1, Err e)
    | (s1, Panic) => Some (s1, Panic)
    end
  end.

(** resolve_tg.rs:151-171. *)
Fixpoint apply_chgs (g : tgraph T) (cs : list (chg T)) (acc : bool) : tgraph T * res bool :=
  match cs with
  | [] => (g, Ok acc)
  | c :: rest => match apply_chg g c with
                 | (g', Ok b) => apply_chgs g' rest (acc || b)
                 | (g', Err e) => (g', Err e)
                 | (g', Panic) => (g', Panic)
                 end
  end.

(** One step of a compilation on the type graph. *)
Inductive step := SChanges (cs : list (chg T)) | SIntersect | SUpgrade | SFlow | SLink (op : nat) (args : list nat)
  | SReduce (op : nat) (keys : option (list T)).
Definition exec (s : state) (x : step) : state * res bool :=
  match x with
  | SChanges cs => let (g, r) := apply_chgs (fst s) cs false in ((g, snd s), r)
  | SIntersect => intersect_inferred_sets s
  | SUpgrade => (upgrade s, Ok true)
  | SFlow => flow_types s
  | SLink op args => let (g, c) := link_args (fst s) op args false in ((g, snd s), Ok c)
  | SReduce op keys => ((reduce_op (fst s) op keys, snd s), Ok true)
  end.
(** A history; it goes on after an error, which covers every way an error may be handled. *)
Fixpoint history (s : state) (xs : list step) : state :=
  match xs with [] => s | x :: r => history (fst (exec s x)) r end.

(** The steps as the compile loop takes them (comp/mod.rs:129-177): changes, links, and whole resolutions. *)
Inductive cstep := CChanges (cs : list (chg T)) | CLink (op : nat) (args : list nat) | CResolve.
Definition exec_c (s : state) (x : cstep) : state * res unit :=
  match x with
  | CChanges cs => let (g, r) := apply_chgs (fst s) cs false in ((g, snd s), let? _ := r in Ok tt)
  | CLink op args => let (g, _) := link_args (fst s) op args false in ((g, snd s), Ok tt)
  | CResolve => match resolve_tg (S (length (edges (fst s)))) s with Some x => x | None => (s, Panic) end
  end.
(** It ends at the first error. *)
Fixpoint compile_history (s : state) (xs : list cstep) : state * res unit :=
  match xs with
  | [] => (s, Ok tt)
  | x :: r => match exec_c s x with (s', Ok _) => compile_history s' r | other => other end
  end.
End graph.
