(** The order of values. *)
From Coq Require Import String List ZArith NArith Bool.
From Verif Require Import Model.Base Model.Value Model.Tuple Model.Compare Spec.TypeSpec.
Import ListNotations.

(** What can be compared: the primitive types, [Ord], and tuples of these to any depth. *)
Inductive comparable : ty -> Prop :=
| comparable_nil : comparable TNil
| comparable_bool : comparable TBool
| comparable_num : comparable TNum
| comparable_str : comparable TStr
| comparable_ord : comparable TOrd
| comparable_tuple ts : ts <> [] -> Forall comparable ts -> comparable (TDef (tuple_ty ts)).

(** Strings are ordered as in a dictionary. *)
Fixpoint dictionary {A} (c : A -> A -> comparison) (a b : list A) : comparison :=
  match a, b with
  | [], [] => Eq
  | [], _ => Lt
  | _, [] => Gt
  | x :: a, y :: b => match c x y with Eq => dictionary c a b | o => o end
  end.

(** False before true; numbers by size; the first element that differs decides. *)
Fixpoint order (a b : value) {struct a} : comparison :=
  match a, b with
  | VBool x, VBool y => match x, y with false, true => Lt | true, false => Gt | _, _ => Eq end
  | VNum x, VNum y => Z.compare x y
  | VStr x, VStr y => dictionary N.compare x y
  | VOgma _ i xs, VOgma _ j ys =>
      match Nat.compare i j with
      | Eq => (fix first (xs ys : list value) : comparison :=
                 match xs, ys with
                 | x :: xs, y :: ys => match order x y with Eq => first xs ys | o => o end
                 | _, _ => Eq
                 end) xs ys
      | o => o
      end
  | _, _ => Eq
  end.

(** what the order says about an operator *)
Definition truth (op : operator) (c : comparison) : bool :=
  match op, c with
  | OpEq, Eq | OpLe, Eq | OpGe, Eq => true
  | OpLt, Lt | OpLe, Lt | OpNe, Lt => true
  | OpGt, Gt | OpGe, Gt | OpNe, Gt => true
  | _, _ => false
  end.

(** [m] is the greatest (least) of the numbers *)
Definition greatest (m : Z) (l : list Z) : Prop := In m l /\ forall x, In x l -> (x <= m)%Z.
Definition least (m : Z) (l : list Z) : Prop := In m l /\ forall x, In x l -> (m <= x)%Z.
