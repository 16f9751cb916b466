(** Comparing: [cmp], [eq], and the operators derived from them. *)
From Coq Require Import String List ZArith NArith Bool.
From Verif Require Import Model.Base Model.Value Model.TableOps Model.Exec Model.Intrinsics.
Import ListNotations.
Set Implicit Arguments.

Section Compare.
Variable W : Type.
Local Notation step := (step W).
Local Notation hold := (hold W).

(** ** Fields *)
(** intrinsics/pipeline.rs:165-194 [FieldAccessor::construct]: the first field of the name *)
Fixpoint find_field {A} (name : str) (fs : list (str * A)) : option (nat * A) :=
  match fs with
  | [] => None
  | (x, a) :: fs => if str_eqb x name then Some (0, a)
                    else match find_field name fs with Some (i, a) => Some (S i, a) | None => None end
  end.
(** pipeline.rs:196-203 [FieldAccessor::get]; the value is consumed, so taking the field out of it or cloning it is the
    same.  A missing place panics. *)
Definition field_get (i : nat) (v : value) : res value :=
  match v with
  | VOgma _ _ data => match nth_error data i with Some x => Ok x | None => Panic end
  | _ => Err 1
  end.
(** pipeline.rs:114-120 [get], compiled; the name is not evaluated *)
Definition get_step (i : nat) : step := Op [] [] (fun input => try (field_get i input) (fun x => Done x)).
(** pipeline.rs:232-259 [.], compiled, on a value that is not a table row *)
Definition dot_step (h : hold) (i : nat) : step :=
  Op [h] [] (fun input => Resolve 0 input (fun x => try (field_get i x) (fun x => Done x))).
(** pipeline.rs:280-286 [\ ] *)
Definition in_step (h : hold) : step := Op [h] [] (fun input => Resolve 0 input (fun x => Done x)).
(** pipeline.rs:384-458 [let], with [k] bindings and maybe a trailing variable *)
Fixpoint let_loop (k i : nat) (trailing : bool) (input : value) : act W :=
  match k with
  | 0 => if trailing then SetVar i input (Done input) else Done input
  | S k => Resolve i input (fun x => SetVar i x (let_loop k (S i) trailing input))
  end.
Definition let_step (hs : list hold) (vars : list (option nat)) : step :=
  Op hs vars (fun input => let_loop (length hs) 0 (Nat.ltb (length hs) (length vars)) input).

(** lang/impls/mod.rs:366-390 [typedef_init] of [Ord::Lt], [Ord::Eq], [Ord::Gt], as an argument *)
Definition ord_arg (c : comparison) : hold := HExpr [Op [] [] (fun _ => Done (VOrd c))].

(** ** cmp.rs, on types that are not tuples *)
Definition compare_with {A} (from : value -> res A) (to : A -> value) (f : A -> A -> value) (rhs : hold) : step :=
  Op [rhs] [] (fun lhs => try (from lhs) (fun l => Resolve 0 (to l) (fun r => try (from r) (fun r => Done (f l r))))).
(** 33-41, 252-262: the argument is not evaluated *)
Definition compare_nil (v : value) : step := Op [] [] (fun _ => Done v).
(** 135-148, 350-362: [variant_idx] of a value that is not a sum panics *)
Definition as_variant (v : value) : res nat := match variant_idx v with Some i => Ok i | None => Panic end.
Definition compare_ord (f : nat -> nat -> value) (rhs : hold) : step :=
  Op [rhs] [] (fun lhs => try (as_variant lhs) (fun l => Resolve 0 lhs (fun r => try (as_variant r) (fun r => Done (f l r))))).

(** types.rs:500-502 [is_tuple]: the name starts with [U_] *)
Definition is_tuple (d : tydef) : bool := match td_name d with 85 :: 95 :: _ => true | _ => false end%N.
Definition is_ord (d : tydef) : bool := str_eqb (td_name d) (lit "Ord").

(** The field [t0], [t1], ... *)
Definition tfield (i : nat) : str := lit "t" ++ dec i.
(** for the elements [0] to [k]: place and compiled comparison *)
Fixpoint sequence {A} (l : list (res A)) : res (list A) :=
  match l with [] => Ok [] | r :: l => let? a := r in let? l := sequence l in Ok (a :: l) end.

(** *** [eq] *)
(** 265-347 *)
Definition eq_bool := compare_with as_bool VBool (fun l r => VBool (Bool.eqb l r)).
Definition eq_num := compare_with as_num VNum (fun l r => VBool (Z.eqb l r)).
Definition eq_str := compare_with as_str VStr (fun l r => VBool (str_eqb l r)).
Definition eq_ord := compare_ord (fun l r => VBool (Nat.eqb l r)).

(** 381-417 [eq_intrinsic] with 420-436 [build_tuple_eq_code]: the code is [and { get t0 | = $rhs.t0 } ...] in an
    environment of its own; [rhs] has slot 0 and the parameter of the [i]-th [=] slot [1+i].  Types that cannot be compared
    are refused (7); a field that is not there too (9).  The checks of the arguments in the generated code hold because the
    two sides of each comparison have the type of the same field. *)
Definition eq_elem (i j : nat) (s : step) : hold :=
  HExpr [get_step j; Def [(Some (S i), HExpr [dot_step (HVar 0) j])] [s]].
Fixpoint eq_step (t : ty) (rhs : hold) {struct t} : res step :=
  match t with
  | TNil => Ok (compare_nil (VBool true))
  | TBool => Ok (eq_bool rhs)
  | TNum => Ok (eq_num rhs)
  | TStr => Ok (eq_str rhs)
  | TTab | TTabRow => Err 7
  | TDef d =>
      if is_ord d then Ok (eq_ord rhs)
      else if is_tuple d then
        match d with
        | TyDef _ (TProduct fs) =>
            let cs := map (fun f : str * ty => let (x, t) := f in (x, eq_step t)) fs in
            let? es := sequence (map (fun i =>
                match find_field (tfield i) cs with
                | Some (j, c) => let? s := c (HVar (S i)) in Ok (eq_elem i j s)
                | None => Err 9
                end) (seq 0 (length fs))) in
            match es with
            | [] => Err 1
            | _ => Ok (Inject [(rhs, Some 0, None)] (env_new (S (length fs))) [and_step es])
            end
        | TyDef _ (TSum _) => Err 1
        end
      else Err 7
  end.

(** lang/defs.rs:45-64: [def = (rhs) { eq $rhs }], [def != (rhs) { eq $rhs | not }], called with the parameter in slot [k];
    the call is compiled for the type of its input (C25) *)
Definition op_eq (t : ty) (k : nat) (rhs : hold) : res step :=
  let? s := eq_step t (HVar k) in Ok (Def [(Some k, rhs)] [s]).
Definition op_ne (t : ty) (k : nat) (rhs : hold) : res step :=
  let? s := eq_step t (HVar k) in Ok (Def [(Some k, rhs)] [s; not_step W]).

(** *** [cmp] *)
(** 51-133 *)
Definition cmp_bool := compare_with as_bool VBool (fun l r => VOrd (Bool.compare l r)).
Definition cmp_num := compare_with as_num VNum (fun l r => VOrd (Z.compare l r)).
Definition cmp_str := compare_with as_str VStr (fun l r => VOrd (str_cmp l r)).
Definition cmp_ord := compare_ord (fun l r => VOrd (Nat.compare l r)).

(** 158-200 [cmp_intrinsic] with 202-229 [build_tuple_cmp_code]: the code is
    [let {get t0 | cmp $rhs.t0} $c0 ... | if {\ $c0 | != Ord::Eq} $c0 ... $cN].  [rhs] has slot 0, [c0], [c1], ... slots 1,
    2, ..., and the parameters of the [!=] the slots after these. *)
Definition cmp_elem (j : nat) (s : step) : hold := HExpr [get_step j; s].
Definition ne_ord (k : nat) (rhs : hold) : step := Def [(Some k, rhs)] [eq_ord (HVar k); not_step W].
Definition cmp_pred (n i : nat) : hold := HExpr [in_step (HVar (S i)); ne_ord (S n + i) (ord_arg Eq)].
Definition cmp_pick (n : nat) : step :=
  if_step (flat_map (fun i => [cmp_pred n i; HVar (S i)]) (seq 0 (pred n)) ++ [HVar n]) (pred n).
Fixpoint cmp_step (t : ty) (rhs : hold) {struct t} : res step :=
  match t with
  | TNil => Ok (compare_nil (VOrd Eq))
  | TBool => Ok (cmp_bool rhs)
  | TNum => Ok (cmp_num rhs)
  | TStr => Ok (cmp_str rhs)
  | TTab | TTabRow => Err 7
  | TDef d =>
      if is_ord d then Ok (cmp_ord rhs)
      else if is_tuple d then
        match d with
        | TyDef _ (TProduct fs) =>
            let cs := map (fun f : str * ty => let (x, t) := f in (x, cmp_step t)) fs in
            let n := length fs in
            let? es := sequence (map (fun i =>
                match find_field (tfield i) cs with
                | Some (j, c) => let? s := c (HExpr [dot_step (HVar 0) j]) in Ok (cmp_elem j s)
                | None => Err 9
                end) (seq 0 n)) in
            match es with
            | [] => Err 3
            | _ => Ok (Inject [(rhs, Some 0, None)] (env_new (S n + pred n))
                         [let_step es (map (fun i => Some (S i)) (seq 0 n)); cmp_pick n])
            end
        | TyDef _ (TSum _) => Err 3
        end
      else Err 7
  end.

(** what [cmp] and [eq] do with their argument *)
Definition compare_arg (in_ty : ty) (args : list (node W)) : res hold :=
  match args with
  | [n] => let? n := supplied in_ty n in let? n := returns in_ty n in concrete n
  | [] => Err 1
  | _ => Err 3
  end.
Definition cmp_intrinsic (in_ty : ty) (args : list (node W)) : res (step * ty) :=
  let? h := compare_arg in_ty args in let? s := cmp_step in_ty h in Ok (s, TOrd).
Definition eq_intrinsic (in_ty : ty) (args : list (node W)) : res (step * ty) :=
  let? h := compare_arg in_ty args in let? s := eq_step in_ty h in Ok (s, TBool).

(** ** lang/defs.rs:65-128: the other derived operators
    [>]: [cmp $rhs | = Ord::Gt]; [>=]: [cmp $rhs | or { = Ord::Gt } { = Ord::Eq }]; [<] and [<=] alike.  [k] is the slot of
    the parameter, [j] and [j'] those of the parameters of the calls of [=]. *)
Definition op_is (c : comparison) (t : ty) (k j : nat) (rhs : hold) : res step :=
  let? s := cmp_step t (HVar k) in
  let? q := op_eq TOrd j (ord_arg c) in
  Ok (Def [(Some k, rhs)] [s; q]).
Definition op_gt := op_is Gt.
Definition op_lt := op_is Lt.
Definition op_or (c : comparison) (t : ty) (k j j' : nat) (rhs : hold) : res step :=
  let? s := cmp_step t (HVar k) in
  let? q := op_eq TOrd j (ord_arg c) in
  let? q' := op_eq TOrd j' (ord_arg Eq) in
  Ok (Def [(Some k, rhs)] [s; or_step [HExpr [q]; HExpr [q']]]).
Definition op_ge := op_or Gt.
Definition op_le := op_or Lt.

Inductive operator := OpEq | OpNe | OpLt | OpLe | OpGt | OpGe.
Definition op_step (op : operator) (t : ty) (k j j' : nat) (rhs : hold) : res step :=
  match op with
  | OpEq => op_eq t k rhs
  | OpNe => op_ne t k rhs
  | OpLt => op_lt t k j rhs
  | OpGt => op_gt t k j rhs
  | OpLe => op_le t k j j' rhs
  | OpGe => op_ge t k j j' rhs
  end.


End Compare.
