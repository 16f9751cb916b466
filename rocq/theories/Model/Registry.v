(** The set of definitions: types and implementations. *)
From Coq Require Import String List ZArith NArith Bool Arith.
From Verif Require Import Model.Base Model.Value Model.Ast.
Import ListNotations.
Set Implicit Arguments.

(** Hash maps as association lists without repeated keys; insertion keeps the old key. *)
Section Alist.
  Variables K V : Type.
  Variable eqb : K -> K -> bool.
  Fixpoint alookup (k : K) (m : list (K * V)) : option V :=
    match m with [] => None | (k', v) :: m => if eqb k' k then Some v else alookup k m end.
  Fixpoint ainsert (k : K) (v : V) (m : list (K * V)) : list (K * V) :=
    match m with
    | [] => [(k, v)]
    | (k', v') :: m => if eqb k' k then (k', v) :: m else (k', v') :: ainsert k v m
    end.
End Alist.

(** ogma/src/lang/impls/mod.rs:10-25 [Implementation].  An intrinsic is a built-in function or the initialiser
    of a variant of a type.  Category and help are left out. *)
Inductive intr := IBuiltin (n : nat) | IInit (d : tydef) (variant : nat).
Inductive impl := IIntrinsic (l : loc) (f : intr) | IDef (d : defn).
Definition im_loc (i : impl) : loc := match i with IIntrinsic l _ => l | IDef d => d_loc d end.

(** impls/mod.rs:58-66 [Implementations], [Keys] *)
Record keys := Keys { k_tys : list (ty * impl); k_any : option impl }.
Definition impls : Type := list (str * keys).

(** types.rs:279-282 [Types]: a built-in type or a definition with its location. *)
Inductive tyent := TyBase (t : ty) | TyUser (l : loc) (d : tydef).
Definition ent_ty (e : tyent) : ty := match e with TyBase t => t | TyUser _ d => TDef d end.
Definition types : Type := list (str * tyent).

(** defs.rs:12-16 [Definitions] *)
Record defs := Defs { df_impls : impls; df_types : types }.

(** ** Lookup *)

(** types.rs:364-370 *)
Definition get_type (ts : types) (n : str) : option ty :=
  match alookup str_eqb n ts with Some e => Some (ent_ty e) | None => None end.
Definition contains_type (ts : types) (n : str) : bool :=
  match alookup str_eqb n ts with Some _ => true | None => false end.

(** impls/mod.rs:69-72 [Keys::get_impl] *)
Definition keys_get (k : keys) (t : ty) : option impl :=
  match alookup ty_eqb t (k_tys k) with Some i => Some i | None => k_any k end.
(** impls/mod.rs:161-163 *)
Definition get_impl (m : impls) (op : str) (t : ty) : option impl :=
  match alookup str_eqb op m with Some k => keys_get k t | None => None end.
(** impls/mod.rs:118-120 *)
Definition contains_op (m : impls) (op : str) : bool :=
  match alookup str_eqb op m with Some _ => true | None => false end.

(** impls/mod.rs:165-174 [get_impl_with_err]: error 1 no implementation, 2 no such op *)
Definition get_impl_with_err (m : impls) (op : str) (t : ty) : res impl :=
  if contains_op m op then match get_impl m op t with Some i => Ok i | None => Err 1 end else Err 2.

(** ** Insertion *)

Definition entry_or_default (m : impls) (op : str) : keys :=
  match alookup str_eqb op m with Some k => k | None => Keys [] None end.
Definition keys_at (k : keys) (key : option ty) : option impl :=
  match key with Some t => alookup ty_eqb t (k_tys k) | None => k_any k end.
Definition keys_set (k : keys) (key : option ty) (i : impl) : keys :=
  match key with
  | Some t => Keys (ainsert ty_eqb t i (k_tys k)) (k_any k)
  | None => Keys (k_tys k) (Some i)
  end.

(** impls/mod.rs:176-214 [insert_intrinsic]; [debug] tells whether debug assertions are compiled in. *)
Definition insert_intrinsic (debug : bool) (m : impls) (op : str) (key : option ty) (l : loc) (f : intr) : res impls :=
  let k := entry_or_default m op in
  let m' := ainsert str_eqb op (keys_set k key (IIntrinsic l f)) m in
  match keys_at k key with
  | None => Ok m'
  | Some _ => if debug then Panic else Ok m'
  end.

(** impls/mod.rs:226-245: defined by ogma *)
Definition ogma_defined (i : impl) : bool :=
  match i with
  | IIntrinsic _ _ => true
  | IDef d => match d_loc d with LOgma => true | _ => false end
  end.

(** impls/mod.rs:216-261 [insert_impl] *)
Definition insert_impl (m : impls) (key : option ty) (d : defn) : res impls :=
  let op := d_name d in
  let prev := match alookup str_eqb op m with Some k => keys_at k key | None => None end in
  match prev with
  | Some i => if ogma_defined i then Err 3
              else Ok (ainsert str_eqb op (keys_set (entry_or_default m op) key (IDef d)) m)
  | None => Ok (ainsert str_eqb op (keys_set (entry_or_default m op) key (IDef d)) m)
  end.

(** impls/mod.rs:323-364 [add_typedef_init_impls] *)
Definition init_ops (d : tydef) : list (str * intr) :=
  match td_tv d with
  | TSum vs => map (fun iv => (td_name d ++ lit "::" ++ fst (snd iv), IInit d (fst iv))) (combine (seq 0 (length vs)) vs)
  | TProduct _ => [(td_name d, IInit d 0)]
  end.
Fixpoint add_inits (debug : bool) (l : loc) (ops : list (str * intr)) (m : impls) : res impls :=
  match ops with
  | [] => Ok m
  | (op, f) :: ops => let? m := insert_intrinsic debug m op None l f in add_inits debug l ops m
  end.

(** types.rs:500-522 [from_parsed_fields] *)
Fixpoint parsed_fields (ts : types) (fs : list pfield) : res (list (str * ty)) :=
  match fs with
  | [] => Ok []
  | f :: fs =>
      match get_type ts (pf_ty f) with
      | None => Err 4
      | Some t => if forallb (contains_type ts) (pf_params f)
                  then let? l := parsed_fields ts fs in Ok ((pf_name f, t) :: l)
                  else Err 4
      end
  end.
Fixpoint parsed_variants (ts : types) (vs : list (str * option (list pfield))) : res (list (str * option (list (str * ty)))) :=
  match vs with
  | [] => Ok []
  | (n, None) :: vs => let? l := parsed_variants ts vs in Ok ((n, None) :: l)
  | (n, Some fs) :: vs =>
      let? fs := parsed_fields ts fs in
      let? l := parsed_variants ts vs in Ok ((n, Some fs) :: l)
  end.
(** types.rs:443-475 [TypeDef::from_parsed_def] *)
Definition from_parsed_def (ts : types) (p : ptype) : res tydef :=
  match pt_tv p with
  | PSum vs => let? vs := parsed_variants ts vs in Ok (TyDef (pt_name p) (TSum vs))
  | PProduct fs => let? fs := parsed_fields ts fs in Ok (TyDef (pt_name p) (TProduct fs))
  end.

(** types.rs:327-358 [insert_inner] after parsing *)
Definition insert_type (ts : types) (p : ptype) : res (types * tydef) :=
  let? d := from_parsed_def ts p in
  if contains_type ts (td_name d) then Err 5
  else Ok (ainsert str_eqb (td_name d) (TyUser (pt_loc p) d) ts, d).

(** ** Clearing *)

(** the predicate of impls/mod.rs:287-293 and types.rs:384-392 *)
Definition kept (only_files : bool) (l : loc) : bool :=
  match l with LOgma => true | LShell => only_files | LFile _ _ => false end.
(** impls/mod.rs:81-90 [Keys::retain] *)
Definition keys_retain (p : impl -> bool) (k : keys) : keys :=
  Keys (filter (fun e => p (snd e)) (k_tys k))
       (match k_any k with Some i => if p i then Some i else None | None => None end).
(** impls/mod.rs:92-94 *)
Definition keys_empty (k : keys) : bool :=
  match k_tys k, k_any k with [], None => true | _, _ => false end.
(** impls/mod.rs:284-295 [Implementations::clear] *)
Definition impls_clear (only_files : bool) (m : impls) : impls :=
  filter (fun e => negb (keys_empty (snd e)))
    (map (fun e => (fst e, keys_retain (fun i => kept only_files (im_loc i)) (snd e))) m).
(** types.rs:384-393 [Types::clear] *)
Definition types_clear (only_files : bool) (ts : types) : types :=
  filter (fun e => match snd e with TyUser l _ => kept only_files l | TyBase _ => true end) ts.

(** ** Commands *)

(** defs.rs:386-405 [assert_all_ops_defined]: the expressions still to check are a stack, of which the last is taken.
    Fuel above the size of the expressions is enough.  An op that is a path panics (ast.rs:273-279). *)
Definition sub_exprs (b : block) : list expr :=
  flat_map (fun t => match t with TArg (AExpr e) => [e] | _ => [] end) (blk_terms b).
Fixpoint check_blocks (m : impls) (bs : list block) : res (list expr) :=
  match bs with
  | [] => Ok []
  | b :: bs =>
      let? op := blk_op b in
      if contains_op m (tg_str op) then
        let? es := check_blocks m bs in Ok (sub_exprs b ++ es)
      else Err 6
  end.
Fixpoint check_exprs (fuel : nat) (m : impls) (stack : list expr) : res unit :=
  match stack with
  | [] => Ok tt
  | e :: stack =>
      match fuel with
      | 0 => Panic
      | S fuel =>
          let? es := check_blocks m (ex_blocks e) in
          check_exprs fuel m (rev es ++ stack)
      end
  end.
Definition assert_all_ops_defined (m : impls) (d : defn) : res unit :=
  check_exprs (size_expr (d_expr d)) m [d_expr d].

(** defs.rs:292-352 [process_impl] and 354-397 [process_ty] after parsing, and [def --clear].  The result comes with the
    definitions left behind. *)
Inductive cmd := CDef (d : defn) | CDefTy (p : ptype) | CClear (only_files : bool).

Definition process_impl (s : defs) (d : defn) : res unit * defs :=
  match assert_all_ops_defined (df_impls s) d with
  | Ok _ =>
      match match d_in d with
            | Some n => match get_type (df_types s) n with Some t => Ok (Some t) | None => Err 4 end
            | None => Ok None
            end with
      | Ok key => match insert_impl (df_impls s) key d with
                  | Ok m => (Ok tt, Defs m (df_types s))
                  | Err e => (Err e, s)
                  | Panic => (Panic, s)
                  end
      | Err e => (Err e, s)
      | Panic => (Panic, s)
      end
  | Err e => (Err e, s)
  | Panic => (Panic, s)
  end.

(** types.rs:372-382 [Types::insert] *)
Definition process_ty (debug : bool) (s : defs) (p : ptype) : res unit * defs :=
  match insert_type (df_types s) p with
  | Ok (ts, d) =>
      match add_inits debug (pt_loc p) (init_ops d) (df_impls s) with
      | Ok m => (Ok tt, Defs m ts)
      | Err e => (Err e, Defs (df_impls s) ts)
      | Panic => (Panic, Defs (df_impls s) ts)
      end
  | Err e => (Err e, s)
  | Panic => (Panic, s)
  end.

(** defs.rs:217-222 [Definitions::clear] *)
Definition process (debug : bool) (s : defs) (c : cmd) : res unit * defs :=
  match c with
  | CDef d => process_impl s d
  | CDefTy p => process_ty debug s p
  | CClear f => (Ok tt, Defs (impls_clear f (df_impls s)) (types_clear f (df_types s)))
  end.

Fixpoint run (debug : bool) (s : defs) (cs : list cmd) : list (res unit) * defs :=
  match cs with
  | [] => ([], s)
  | c :: cs => let (r, s) := process debug s c in
               let (rs, s) := run debug s cs in (r :: rs, s)
  end.

(** types.rs:288-299: the built-in types other than Ord *)
Definition base_types : types :=
  [(lit "Nil", TyBase TNil); (lit "Bool", TyBase TBool); (lit "Num", TyBase TNum); (lit "Str", TyBase TStr);
   (lit "Table", TyBase TTab); (lit "TableRow", TyBase TTabRow); (lit "Ord", TyUser LOgma ord_tydef)].
