(** Nested tuple types and how their names are written. *)
From Coq Require Import String List ZArith NArith Bool.
From Verif Require Import Model.Base Model.Value Model.Tuple.
Import ListNotations.
Set Implicit Arguments.

(** A nesting of tuples over other types. *)
Inductive shape := Leaf (t : ty) | Node (l : list shape).

(** The type that nested uses of [Tuple] produce. *)
Fixpoint build (s : shape) : ty :=
  match s with Leaf t => t | Node l => TDef (tuple_ty (map build l)) end.

(** No tuple is empty and the leaves satisfy [leaf]. *)
Fixpoint proper (leaf : ty -> Prop) (s : shape) : Prop :=
  match s with
  | Leaf t => leaf t
  | Node l => l <> [] /\ (fix all (l : list shape) : Prop :=
                            match l with [] => True | x :: l => proper leaf x /\ all l end) l
  end.

Fixpoint join (sep : str) (ws : list str) : str :=
  match ws with
  | [] => []
  | [w] => w
  | w :: ws => w ++ sep ++ join sep ws
  end.

(** U_a-b-c_ *)
Fixpoint written (s : shape) : str :=
  match s with
  | Leaf t => tyname t
  | Node l => lit "U_" ++ join (lit "-") (map written l) ++ lit "_"
  end.

(** A type known under its name, whose name has neither dash nor underscore. *)
Definition plain (types : str -> option ty) (t : ty) : Prop :=
  types (tyname t) = Some t /\ tyname t <> [] /\ ~ In 45%N (tyname t) /\ ~ In 95%N (tyname t).

(** No tuple in [s] ends in a type called U. *)
Fixpoint no_final_U (s : shape) : Prop :=
  match s with
  | Leaf _ => True
  | Node l => (forall l' t, l = l' ++ [Leaf t] -> tyname t <> lit "U") /\
              (fix all (l : list shape) : Prop := match l with [] => True | x :: l => no_final_U x /\ all l end) l
  end.

(** Types are registered under their own names. *)
Definition keyed (types : str -> option ty) : Prop := forall n t, types n = Some t -> tyname t = n.
