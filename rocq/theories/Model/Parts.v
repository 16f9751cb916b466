(** The partition tree of the new definitions module. *)
From Coq Require Import String Ascii List ZArith NArith Arith Bool.
From Verif Require Import Model.Base Model.TableCrate.
Import ListNotations.
Set Implicit Arguments.

(** ogma/src/lang/defs2/partitions/mod.rs:14-36 [Node], [Item], [Partitions].  A [PartSet] is its list of ids.
    Ids are natural numbers (fewer than 2^32 nodes). *)
Inductive pitem :=
| PBoundary (exports children : list nat)
| PType (imports : list nat)
| PImpl (imports : list nat).
Record pnode := PNode { pn_name : str; pn_parent : option nat; pn_item : pitem }.
Notation parts := (list pnode).

(** partitions/item.rs:13-23, node.rs *)
Definition is_boundary (n : pnode) : bool := match pn_item n with PBoundary _ _ => true | _ => false end.
Definition is_type (n : pnode) : bool := match pn_item n with PType _ => true | _ => false end.
Definition is_impl (n : pnode) : bool := match pn_item n with PImpl _ => true | _ => false end.
Definition eq_boundary (name : str) (n : pnode) : bool := is_boundary n && str_eqb name (pn_name n).
Definition eq_type (name : str) (n : pnode) : bool := is_type n && str_eqb name (pn_name n).

(** Iterator adapters with a fallible test. *)
Fixpoint rfind {A} (f : A -> res bool) (l : list A) : res (option A) :=
  match l with
  | [] => Ok None
  | x :: l => let? b := f x in if b then Ok (Some x) else rfind f l
  end.
Fixpoint rfilter {A} (f : A -> res bool) (l : list A) : res (list A) :=
  match l with
  | [] => Ok []
  | x :: l => let? b := f x in let? r := rfilter f l in Ok (if b then x :: r else r)
  end.
Fixpoint rfold {S A} (f : S -> A -> res S) (l : list A) (s : S) : res S :=
  match l with
  | [] => Ok s
  | x :: l => let? s := f s x in rfold f l s
  end.

(** mod.rs:594-600 [Index<Id>] *)
Definition pget (ps : parts) (i : nat) : res pnode :=
  match nth_error ps i with Some n => Ok n | None => Panic end.
(** mod.rs:230-235 [children] (with [Index<BoundaryNode>] 564-572) *)
Definition pchildren (ps : parts) (b : nat) : res (list nat) :=
  let? n := pget ps b in
  match pn_item n with PBoundary _ c => Ok c | _ => Panic end.

(** mod.rs:63-81 [Partitions::new] *)
Definition parts_new : parts :=
  [PNode (lit "<root>") None (PBoundary [] []); PNode (lit "<shell>") None (PBoundary [] []);
   PNode (lit "<plugins>") None (PBoundary [] [])].
Definition root_id : nat := 0.
Definition plugins_id : nat := 2.

Fixpoint upd {A} (i : nat) (f : A -> A) (l : list A) : list A :=
  match l, i with
  | [], _ => []
  | x :: l, 0 => f x :: l
  | x :: l, S i => x :: upd i f l
  end.

(** mod.rs:177-193 [add_node]; a child of something that is no boundary is not recorded. *)
Definition add_child (c : nat) (n : pnode) : pnode :=
  match pn_item n with
  | PBoundary e cs => PNode (pn_name n) (pn_parent n) (PBoundary e (cs ++ [c]))
  | _ => n
  end.
Definition add_node (ps : parts) (parent : nat) (name : str) (it : pitem) : res (nat * parts) :=
  let child := length ps in
  let ps := ps ++ [PNode name (Some parent) it] in
  if parent <? length ps then Ok (child, upd parent (add_child child) ps) else Panic.

(** mod.rs:612-638 [is_valid_part_name] *)
Definition ascii_alpha (c : N) : bool := ((65 <=? c) && (c <=? 90) || (97 <=? c) && (c <=? 122))%N.
Definition ascii_digit (c : N) : bool := ((48 <=? c) && (c <=? 57))%N.
Definition is_valid_part_name (name : str) : res unit :=
  match name with
  | [] => Err 1
  | f :: cs =>
      if (f =? 95)%N || ascii_alpha f then
        if forallb (fun c => (c =? 45)%N || (c =? 95)%N || ascii_alpha c || ascii_digit c) cs then Ok tt else Err 2
      else Err 3
  end.

(** mod.rs:203-228 [get_or_create_boundary_path].  A component that is not UTF-8 equals no name and is replaced by the
    empty name; it is represented by the empty name. *)
Definition boundary_step (s : nat * parts) (p : str) : res (nat * parts) :=
  let (a, ps) := s in
  let? cs := pchildren ps a in
  let? b := rfind (fun n => let? nd := pget ps n in Ok (eq_boundary p nd)) cs in
  match b with
  | Some b => Ok (b, ps)
  | None => let? _ := is_valid_part_name p in add_node ps a p (PBoundary [] [])
  end.
Definition get_or_create_boundary_path (ps : parts) (path : list str) (root : nat) : res (nat * parts) :=
  rfold boundary_step path (root, ps).

(** mod.rs:237-252 [add_type], 254-264 [add_impl] *)
Definition add_type (ps : parts) (parent : nat) (name : str) : res (nat * parts) :=
  let? cs := pchildren ps parent in
  let? ex := rfind (fun n => let? nd := pget ps n in Ok (eq_type name nd)) cs in
  match ex with
  | Some _ => Err 4
  | None => add_node ps parent name (PType [])
  end.
Definition add_impl (ps : parts) (parent : nat) (name : str) : res (nat * parts) :=
  add_node ps parent name (PImpl []).

(** ogma/src/lang/syntax/parse/file.rs:26-75: directives and imports. *)
Inductive prefix := PxNone | PxRoot | PxPlugins.
Record import := Import { im_prefix : prefix; im_path : list str; im_glob : str }.
Inductive directive := DNoParallelise | DFailFast | DImport (l : list import) | DExport (l : list str).
Record pfile := PFile { f_directives : list directive; f_types : list str; f_impls : list str }.

(** ** partset.rs *)
Section PartSet.
  (** [sort], [sort_by], and [partition_point] of the standard library. *)
  Variable so : sorter.
  Variable partition_point : forall A : Type, (A -> bool) -> list A -> nat.

  Fixpoint dedup (l : list nat) : list nat :=
    match l with
    | [] => []
    | x :: r => match r with y :: _ => if x =? y then dedup r else x :: dedup r | [] => [x] end
    end.

  (** partset.rs:68-90 [node_cmp] *)
  Definition item_rank (it : pitem) : nat := match it with PBoundary _ _ => 0 | PType _ => 1 | PImpl _ => 2 end.
  Definition node_cmp (a b : pnode) : comparison :=
    match str_cmp (pn_name a) (pn_name b) with
    | Eq => match pn_item a, pn_item b with
            | PBoundary _ _, PBoundary _ _ => Eq
            | PBoundary _ _, _ => Lt
            | _, PBoundary _ _ => Gt
            | PType _, PType _ => Eq
            | PType _, _ => Lt
            | _, PType _ => Gt
            | PImpl _, PImpl _ => Eq
            end
    | c => c
    end.

  (** partset.rs:24-34 [from_vec].  Sorting two or more ids looks at each of them. *)
  Definition id_cmp (ps : parts) (a b : nat) : comparison :=
    match nth_error ps a, nth_error ps b with
    | Some x, Some y => node_cmp x y
    | _, _ => Eq
    end.
  Definition from_vec (ps : parts) (ids : list nat) : res (list nat) :=
    let ids := dedup (fst (so Nat.compare ids)) in
    if (2 <=? length ids) && existsb (fun i => length ps <=? i) ids then Panic
    else Ok (fst (so (id_cmp ps) ids)).

  (** partset.rs:41-43 [contains_id] *)
  Definition contains_id (s : list nat) (i : nat) : bool := existsb (Nat.eqb i) s.

  (** partset.rs:46-58 [find] *)
  Definition name_lt (ps : parts) (name : str) (i : nat) : bool :=
    match nth_error ps i with Some n => match str_cmp (pn_name n) name with Lt => true | _ => false end | None => false end.
  Definition name_le (ps : parts) (name : str) (i : nat) : bool :=
    match nth_error ps i with Some n => match str_cmp (pn_name n) name with Gt => false | _ => true end | None => false end.
  Definition set_find (ps : parts) (s : list nat) (name : str) : res (list nat) :=
    if existsb (fun i => length ps <=? i) s then Panic
    else
      let lwr := partition_point (name_lt ps name) s in
      let upr := partition_point (name_le ps name) s in
      if (lwr <=? upr) && (upr <=? length s) then Ok (firstn (upr - lwr) (skipn lwr s)) else Panic.

  (** ** Exports and imports *)
  (** [globset]: a pattern is invalid or matches a set of names. *)
  Variable glob : str -> option (str -> bool).

  (** mod.rs:436-455 [glob_find] *)
  Definition glob_find (ps : parts) (parent : nat) (pat : str) : res (list nat) :=
    match glob pat with
    | None => Err 5
    | Some m => let? cs := pchildren ps parent in
                rfilter (fun n => let? nd := pget ps n in Ok (m (pn_name nd))) cs
    end.

  Definition set_exports (xs : list nat) (n : pnode) : pnode :=
    match pn_item n with
    | PBoundary _ cs => PNode (pn_name n) (pn_parent n) (PBoundary xs cs)
    | _ => n
    end.
  Definition set_imports (xs : list nat) (n : pnode) : pnode :=
    match pn_item n with
    | PBoundary _ _ => n
    | PType _ => PNode (pn_name n) (pn_parent n) (PType xs)
    | PImpl _ => PNode (pn_name n) (pn_parent n) (PImpl xs)
    end.

  (** mod.rs:258-294 [add_exports] *)
  Definition export_step (ps : parts) (b : nat) (xs : list nat) (e : str) : res (list nat) :=
    let? found := glob_find ps b e in
    let? keep := rfilter (fun n => let? nd := pget ps n in Ok (negb (is_boundary nd))) found in
    match keep with [] => Err 6 | _ => Ok (xs ++ keep) end.
  Definition add_exports (ps : parts) (b : nat) (exports : list str) : res parts :=
    match exports with
    | [] => Ok ps
    | _ =>
        let? n := pget ps b in
        match pn_item n with
        | PBoundary old _ =>
            let? xs := rfold (export_step ps b) exports old in
            let? xs := from_vec ps xs in
            Ok (upd b (set_exports xs) ps)
        | _ => Panic
        end
    end.

  (** mod.rs:371-421 [find_boundary] *)
  Definition boundary_up (ps : parts) (a : nat) (p : str) : res nat :=
    let? n := pget ps a in
    if negb (is_boundary n) then Panic
    else if str_eqb p (lit "..") then
      match pn_parent n with Some x => Ok x | None => Err 7 end
    else
      let? cs := pchildren ps a in
      let? b := rfind (fun n => let? nd := pget ps n in Ok (eq_boundary p nd)) cs in
      match b with Some b => Ok b | None => Err 8 end.
  Definition find_boundary (ps : parts) (from : nat) (path : list str) : res nat := rfold (boundary_up ps) path from.

  (** mod.rs:344-369 [resolve_import] *)
  Definition resolve_import (ps : parts) (this : nat) (im : import) : res (list nat) :=
    let from := match im_prefix im with PxNone => this | PxRoot => root_id | PxPlugins => plugins_id end in
    let? bnd := find_boundary ps from (im_path im) in
    let? n := pget ps bnd in
    match pn_item n with
    | PBoundary exports _ =>
        let? found := glob_find ps bnd (im_glob im) in
        rfilter (fun x => let? nd := pget ps x in
                          Ok (negb (x =? this) && (is_boundary nd || contains_id exports x))) found
    | _ => Panic
    end.

  (** mod.rs:320-342 [resolve_imports] *)
  Definition import_step (ps : parts) (from : nat) (v : list nat) (im : import) : res (list nat) :=
    let? x := resolve_import ps from im in
    match x with [] => Err 9 | _ => Ok (v ++ x) end.
  Definition resolve_imports (ps : parts) (from : nat) (ims : list import) : res (list nat) :=
    rfold (import_step ps from) ims [].

  (** mod.rs:296-318 [add_imports] *)
  Definition import_to (xs : list nat) (ps : parts) (n : nat) : res parts :=
    if n <? length ps then Ok (upd n (set_imports xs) ps) else Panic.
  Definition add_imports (ps : parts) (b : nat) (ims : list import) (to : list nat) : res parts :=
    match ims with
    | [] => Ok ps
    | _ =>
        let? xs := resolve_imports ps b ims in
        let? xs := from_vec ps xs in
        rfold (import_to xs) to ps
    end.

  (** ** mod.rs:95-171 [extend_root] *)
  (** The order in which the map of exports is visited. *)
  Variable hash_order : list (nat * list str) -> list (nat * list str).

  Record ext_state := Ext { e_parts : parts; e_exports : list (nat * list str); e_imports : list (nat * list import * list nat) }.

  (** mod.rs:117-130 *)
  Definition split_directives (ds : list directive) : list import * list str :=
    fold_left (fun (ie : list import * list str) x =>
      let (i, e) := ie in
      match x with DImport l => (i ++ l, e) | DExport l => (i, e ++ l) | DFailFast | DNoParallelise => (i, e) end) ds ([], []).

  (** [entry(bnd).or_default().extend(exports)] *)
  Fixpoint extend_entry (b : nat) (xs : list str) (m : list (nat * list str)) : list (nat * list str) :=
    match m with
    | [] => [(b, xs)]
    | (b', ys) :: m => if b =? b' then (b', ys ++ xs) :: m else (b', ys) :: extend_entry b xs m
    end.

  Definition add_named (add : parts -> nat -> str -> res (nat * parts)) (b : nat) (s : list nat * parts) (n : str)
    : res (list nat * parts) :=
    let (ns, ps) := s in
    let? r := add ps b n in
    Ok (ns ++ [fst r], snd r).

  Definition file_step (b : nat) (s : ext_state) (f : pfile) : res ext_state :=
    let (imports, exports) := split_directives (f_directives f) in
    let em := match exports with [] => e_exports s | _ => extend_entry b exports (e_exports s) end in
    let? r := rfold (add_named add_type b) (f_types f) ([], e_parts s) in
    let? r := rfold (add_named add_impl b) (f_impls f) r in
    let (ns, ps) := r in
    let im := match ns, imports with
              | [], _ | _, [] => e_imports s
              | _, _ => e_imports s ++ [(b, imports, ns)]
              end in
    Ok (Ext ps em im).

  Definition path_step (s : ext_state) (pf : list str * list pfile) : res ext_state :=
    let? r := get_or_create_boundary_path (e_parts s) (fst pf) root_id in
    let (b, ps) := r in
    rfold (file_step b) (snd pf) (Ext ps (e_exports s) (e_imports s)).

  Definition extend_root (ps : parts) (fsmap : list (list str * list pfile)) : res parts :=
    let? s := rfold path_step fsmap (Ext ps [] []) in
    let? ps := rfold (fun ps be => add_exports ps (fst be) (snd be)) (hash_order (e_exports s)) (e_parts s) in
    rfold (fun ps x => let '(b, ims, ns) := x in add_imports ps b ims ns) (e_imports s) ps.

  (** ** mod.rs:490-544 [find] *)
  (** [str::split('/')] *)
  Fixpoint split_slash (s : str) : list str :=
    match s with
    | [] => [[]]
    | c :: s => match split_slash s with
                | [] => [[c]]
                | w :: ws => if (c =? 47)%N then [] :: w :: ws else (c :: w) :: ws
                end
    end.

  Definition find_step (ps : parts) (bnds : list nat) (x : str) : res (list nat) :=
    if str_eqb x (lit "..") then
      let? ns := rmapM (pget ps) bnds in
      Ok (flat_map (fun n => match pn_parent n with Some p => [p] | None => [] end) ns)
    else
      let? bs := rfilter (fun n => let? nd := pget ps n in Ok (is_boundary nd)) bnds in
      let? cs := rmapM (pchildren ps) bs in
      rfilter (fun n => let? nd := pget ps n in Ok (str_eqb (pn_name nd) x)) (concat cs).

  Definition find_start (ps : parts) (within : nat) (imports : list nat) (path : str) : res (list nat * list str) :=
    match path with
    | (47%N) :: 47%N :: path => Ok ([plugins_id], split_slash path)
    | (47%N) :: path => Ok ([root_id], split_slash path)
    | _ =>
        match split_slash path with
        | [] => Panic
        | fst :: rest =>
            let? n := pget ps within in
            if negb (is_boundary n) then Panic
            else
              let? roots :=
                if str_eqb fst (lit "..") then Ok (match pn_parent n with Some p => [p] | None => [] end)
                else
                  let? cs := pchildren ps within in
                  let? own := rfilter (fun n => let? nd := pget ps n in Ok (str_eqb (pn_name nd) fst)) cs in
                  let? imp := set_find ps imports fst in
                  Ok (own ++ imp) in
              Ok (roots, rest)
        end
    end.

  Definition pfind (ps : parts) (within : nat) (imports : list nat) (path : str) : res (list nat) :=
    let? r := find_start ps within imports path in
    let? bnds := rfold (find_step ps) (snd r) (fst r) in
    Ok (dedup (fst (so Nat.compare bnds))).

  (** mod.rs:463-487 [find_types], [find_impls] *)
  Definition find_types (ps : parts) (within : nat) (imports : list nat) (path : str) : res (list nat) :=
    let? r := pfind ps within imports path in rfilter (fun n => let? nd := pget ps n in Ok (is_type nd)) r.
  Definition find_impls (ps : parts) (within : nat) (imports : list nat) (path : str) : res (list nat) :=
    let? r := pfind ps within imports path in rfilter (fun n => let? nd := pget ps n in Ok (is_impl nd)) r.
End PartSet.
