(** What the compiler may believe about types. *)
From Coq Require Import List.
From Verif Require Import Model.Base Model.TyGraph.
Import ListNotations.
Set Implicit Arguments.

(** The types a piece of knowledge leaves open. *)
Definition allows T (k : kn T) (t : T) : Prop :=
  match k with Any => True | Known u | Obliged u => u = t | Inferred ts => In t ts end.

(** This side of this node is known or obliged to be [t]. *)
Definition settled T (g : tgraph T) (s : slot) (t : T) : Prop := kn_at g s = Some (Known t) \/ kn_at g s = Some (Obliged t).

(** The two ends of an edge. *)
Definition feeds (e : edge) : slot * slot :=
  match e_flow e with
  | II => ((e_from e, In_), (e_to e, In_))
  | IO => ((e_from e, In_), (e_to e, Out_))
  | OI => ((e_from e, Out_), (e_to e, In_))
  | OO => ((e_from e, Out_), (e_to e, Out_))
  end.

(** All edges join nodes of the graph. *)
Definition wf_graph T (g : tgraph T) : Prop :=
  forall e, In e (edges g) -> e_from e < length (nodes g) /\ e_to e < length (nodes g).

(** No input is marked as taking anything. *)
Definition no_any T (g : tgraph T) : Prop := forall s, kn_at g s <> Some Any.

(** Which change settles a side, and on which type. *)
Definition claims T (c : chg T) : option (slot * T) :=
  match c with
  | KnownInput n t | ObligeInput n t => Some ((n, In_), t)
  | KnownOutput n t | ObligeOutput n t => Some ((n, Out_), t)
  | _ => None
  end.

(** Every change but those that add a type to all open sets, or mark an input as taking anything. *)
Definition narrowing T (c : chg T) : Prop := match c with AnonTy _ | AnyInput _ => False | _ => True end.
Definition narrowing_c T (x : cstep T) : Prop := match x with CChanges cs => Forall (@narrowing T) cs | _ => True end.

(** Edges that have flowed agree: both ends are settled on one type. *)
Definition agrees T (g : tgraph T) (e : edge) : Prop := exists t, settled g (fst (feeds e)) t /\ settled g (snd (feeds e)) t.

(** Nothing is left to do: no side is down to a single open type, and the edges that have not flowed have nothing to
    carry. *)
Definition at_rest T (s : state T) : Prop :=
  (forall p t, kn_at (fst s) p <> Some (Inferred [t])) /\
  forall i e, nth_error (edges (fst s)) i = Some e -> ~ In i (snd s) ->
    exists from to, kn_at (fst s) (fst (feeds e)) = Some from /\ kn_at (fst s) (snd (feeds e)) = Some to /\
      (forall t, ~ settled (fst s) (fst (feeds e)) t) /\
      (e_flow e = II -> from <> Any /\ forall t, ~ settled (fst s) (snd (feeds e)) t).
