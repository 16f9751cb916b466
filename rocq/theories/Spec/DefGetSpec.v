(** What a path means in a partition. *)
From Coq Require Import String List NArith Bool Arith.
From Verif Require Import Model.Base Model.Value Model.TableCrate Model.Parts Spec.PartsSpec.
Import ListNotations.

(** A path is relative, from the root, or from the plugins. *)
Inductive origin := Here | FromRoot | FromPlugins.
Definition path_text (o : origin) (s : str) (segs : list str) : str :=
  match o with Here => [] | FromRoot => [47%N] | FromPlugins => [47%N; 47%N] end ++ join (s :: segs).
Definition path_ok (s : str) (segs : list str) : Prop := s <> [] /\ Forall no_slash (s :: segs).
(** What a path leads to from a partition with these imports. *)
Definition sees (ps : parts) (b : nat) (imports : list nat) (o : origin) (s : str) (segs : list str) (y : nat) : Prop :=
  match o with
  | Here => exists x, starts ps b imports s x /\ walks ps x segs y
  | FromRoot => walks ps 0 (s :: segs) y
  | FromPlugins => walks ps 2 (s :: segs) y
  end.
(** Where a lookup starts: for an item in its partition, with its imports; for a partition above it; for the roots at the root. *)
Inductive place (ps : parts) : nat -> nat -> list nat -> Prop :=
| place_item : forall i k p s l, node_is ps i k (Some p) s -> imports_of ps i l -> place ps i p l
| place_partition : forall i p s, node_is ps i KBoundary (Some p) s -> place ps i p []
| place_root : forall i, i < 3 -> place ps i 0 [].

Definition finds (ps : parts) (k : kind) (i : nat) (o : origin) (s : str) (segs : list str) (y : nat) : Prop :=
  is_kind ps y k /\ exists b l, place ps i b l /\ sees ps b l o s segs y.

(** Types are told apart by their names. *)
Definition same_type (a b : ty) : Prop := a = b \/ exists d e, a = TDef d /\ b = TDef e /\ td_name d = td_name e.
(** A property of one thing, of more than one. *)
Definition just (P : nat -> Prop) (y : nat) : Prop := P y /\ forall z, P z -> z = y.
Definition several (P : nat -> Prop) : Prop := exists y z, P y /\ P z /\ y <> z.
Definition none (P : nat -> Prop) : Prop := forall y, ~ P y.

(** The sets of imports of all items were made by [from_vec]. *)
Definition sets (so : sorter) (ps : parts) : Prop := forall i l, imports_of ps i l -> id_set so ps l.

(** The ops that are for exactly this type; those for any type. *)
Definition exactly {I} (impls : nat -> option (option ty * I)) (t : ty) (y : nat) : Prop := exists u a, impls y = Some (Some u, a) /\ same_type u t.
Definition general {I} (impls : nat -> option (option ty * I)) (y : nat) : Prop := exists a, impls y = Some (None, a).
Definition body_of {I} (impls : nat -> option (option ty * I)) (y : nat) (a : I) : Prop := exists u, impls y = Some (u, a).
