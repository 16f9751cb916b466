(** Values, types, tables and table entries. *)
From Coq Require Import String List ZArith NArith Bool Lia.
From Verif Require Import Model.Base.
Import ListNotations.
Set Implicit Arguments.

(** ogma/src/lang/types.rs:63-78 [Type], 400-446 [TypeDef], [TypeVariant], [Variant], [Field].
    Simplified: source location, help text, and type parameters of fields are left out (the
    location is added where it matters, in the registry model). *)
Inductive ty : Type :=
| TNil | TBool | TNum | TStr | TTab | TTabRow
| TDef (d : tydef)
with tydef : Type := TyDef (name : str) (tv : tyvariant)
with tyvariant : Type :=
| TSum (vs : list (str * option (list (str * ty))))
| TProduct (fs : list (str * ty)).

Definition td_name (d : tydef) : str := let (n, _) := d in n.
Definition td_tv (d : tydef) : tyvariant := let (_, v) := d in v.

(** types.rs:527-542: [TypeDef] equality is on the name alone; [Type] derives it. *)
Definition ty_eqb (a b : ty) : bool :=
  match a, b with
  | TNil, TNil | TBool, TBool | TNum, TNum | TStr, TStr | TTab, TTab | TTabRow, TTabRow => true
  | TDef a, TDef b => str_eqb (td_name a) (td_name b)
  | _, _ => false
  end.

(** The external crate [table]: [Entry<V>]. *)
Inductive entry (V : Type) : Type := ENil | ENum (n : Z) | EObj (v : V).
Arguments ENil {V}.
Arguments ENum {V} n.
Arguments EObj {V} v.

(** types.rs:135-150 [Value].  A number is its exact value in units of 2^-1074.  A table is its
    rows (the first is the header).  A table row is its table, the row index, and the identity
    of its column cache (types.rs:711-718, used by equality only). *)
Inductive value : Type :=
| VNil
| VBool (b : bool)
| VNum (n : Z)
| VStr (s : str)
| VTab (t : list (list (entry value)))
| VTabRow (t : list (list (entry value))) (idx : nat) (cache : nat)
| VOgma (d : tydef) (variant : nat) (data : list value).

Notation ent := (entry value).
Notation row := (list (entry value)).
Notation table := (list (list (entry value))).

(** types.rs:153-165 [Value::ty] *)
Definition ty_of (v : value) : ty :=
  match v with
  | VNil => TNil | VBool _ => TBool | VNum _ => TNum | VStr _ => TStr
  | VTab _ => TTab | VTabRow _ _ _ => TTabRow
  | VOgma d _ _ => TDef d
  end.

(** types.rs:168-173 [Value::variant_idx] *)
Definition variant_idx (v : value) : option nat :=
  match v with
  | VOgma (TyDef _ (TSum _)) i _ => Some i
  | _ => None
  end.

(** types.rs:177-185: [From<&Entry<Value>> for Value] *)
Definition val_of_ent (e : ent) : value :=
  match e with ENil => VNil | ENum n => VNum n | EObj v => v end.

(** types.rs:187-195: [From<Value> for Entry<Value>] *)
Definition ent_of_val (v : value) : ent :=
  match v with VNil => ENil | VNum n => ENum n | x => EObj x end.

(** mod.rs:188-190 [o] *)
Definition o (s : str) : ent := EObj (VStr s).

(** Units in which numbers are kept. *)
Definition num_unit : Z := (2 ^ 1074)%Z.
Definition num_of_Z (z : Z) : Z := (z * num_unit)%Z.

(** intrinsics/mod.rs:299-311 [cnv_num_to_uint::<usize>]: the value must be a number, that
    number a non-negative integer fitting u128, and then fitting usize.  Error codes are
    arbitrary. *)
Definition cnv_num_to_usize (v : value) : res N :=
  match v with
  | VNum z =>
      if (z mod num_unit =? 0)%Z && (0 <=? z)%Z && (z / num_unit <? 2 ^ 128)%Z
      then let n := Z.to_N (z / num_unit) in
           if (n <=? usize_max)%N then Ok n else Err 3
      else Err 2
  | _ => Err 1
  end.

(** types.rs:198-276: [TryFrom<Value>] conversions. *)
Definition as_bool (v : value) : res bool := match v with VBool b => Ok b | _ => Err 1 end.
Definition as_str (v : value) : res str := match v with VStr s => Ok s | _ => Err 1 end.
Definition as_num (v : value) : res Z := match v with VNum n => Ok n | _ => Err 1 end.
Definition as_tab (v : value) : res table := match v with VTab t => Ok t | _ => Err 1 end.

(** types.rs:672-709: [Ord] type and its three constants. *)
Definition ord_tydef : tydef :=
  TyDef (lit "Ord") (TSum [(lit "Lt", None); (lit "Eq", None); (lit "Gt", None)]).
Definition TOrd : ty := TDef ord_tydef.
Definition VOrd (c : comparison) : value :=
  VOgma ord_tydef (match c with Lt => 0 | Eq => 1 | Gt => 2 end) [].

(** intrinsics/mod.rs:449-456 [cnv_value_to_ord] *)
Definition ord_of_value (v : value) : comparison :=
  match variant_idx v with Some 0 => Lt | Some 1 => Eq | _ => Gt end.

(** Derived [PartialEq] of values (types.rs:134, 586-594, 771-777): user types by name, table rows
    also by identity of the cache. Entries compare by variant. *)
Fixpoint value_eqb (a b : value) {struct a} : bool :=
  let ent_eqb (x y : ent) : bool :=
    match x, y with
    | ENil, ENil => true
    | ENum n, ENum m => Z.eqb n m
    | EObj v, EObj w => value_eqb v w
    | _, _ => false
    end in
  let row_eqb := fix row_eqb (x y : list ent) : bool :=
    match x, y with
    | [], [] => true
    | e :: x, f :: y => ent_eqb e f && row_eqb x y
    | _, _ => false
    end in
  let tab_eqb := fix tab_eqb (x y : list (list ent)) : bool :=
    match x, y with
    | [], [] => true
    | e :: x, f :: y => row_eqb e f && tab_eqb x y
    | _, _ => false
    end in
  let vals_eqb := fix vals_eqb (x y : list value) : bool :=
    match x, y with
    | [], [] => true
    | e :: x, f :: y => value_eqb e f && vals_eqb x y
    | _, _ => false
    end in
  match a, b with
  | VNil, VNil => true
  | VBool x, VBool y => Bool.eqb x y
  | VNum x, VNum y => Z.eqb x y
  | VStr x, VStr y => str_eqb x y
  | VTab t, VTab u => tab_eqb t u
  | VTabRow t i c, VTabRow u j d => tab_eqb t u && Nat.eqb i j && Nat.eqb c d
  | VOgma d i xs, VOgma e j ys => str_eqb (td_name d) (td_name e) && Nat.eqb i j && vals_eqb xs ys
  | _, _ => false
  end.

Definition ent_eqb (x y : ent) : bool :=
  match x, y with
  | ENil, ENil => true
  | ENum n, ENum m => Z.eqb n m
  | EObj v, EObj w => value_eqb v w
  | _, _ => false
  end.
