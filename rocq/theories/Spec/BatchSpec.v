(** What a batch run should give, item by item. *)
From Coq Require Import List Arith Bool.
From Verif Require Import Model.Base Model.Batch.
Import ListNotations.

Section Spec.
  Variable D : Type.
  Variable def_run : item -> D -> bool * D.
  Variable expr_run : item -> D -> bool.

  (** The order in which a sequential run takes the items: definitions first. *)
  Definition is_def (items : list item) (i : nat) : Prop := exists it, nth_error items i = Some it /\ it_type it <> IExpr.
  Definition is_xpr (items : list item) (i : nat) : Prop := exists it, nth_error items i = Some it /\ it_type it = IExpr.

  (** The definitions after the items of [items] that are definitions have been processed in turn. *)
  Fixpoint defs_after (items : list item) (d : D) : D :=
    match items with
    | [] => d
    | it :: items => defs_after items (match it_type it with IExpr => d | _ => snd (def_run it d) end)
    end.

  (** What running item [i] gives: definitions see the definitions before them, expressions all of them. *)
  Definition succeeds (items : list item) (d : D) (i : nat) : option bool :=
    match nth_error items i with
    | Some it => match it_type it with
                 | IExpr => Some (expr_run it (defs_after items d))
                 | _ => Some (fst (def_run it (defs_after (firstn i items) d)))
                 end
    | None => None
    end.
  Definition own_outcome (items : list item) (d : D) (i : nat) (o : outcome) : Prop :=
    (succeeds items d i = Some true /\ o = Success) \/ (succeeds items d i = Some false /\ o = Failed).

  (** [i] comes before [j] in a sequential run. *)
  Definition earlier (items : list item) (i j : nat) : Prop :=
    (is_def items i /\ is_def items j /\ i < j) \/ (is_def items i /\ is_xpr items j) \/
    (is_xpr items i /\ is_xpr items j /\ i < j).
End Spec.

Section Progress.
  Variable D : Type.
  Variable def_run : item -> D -> bool * D.
  Variable expr_run : item -> D -> bool.

  (** Each message differs from the one before in one item, which turns from outstanding to its own outcome. *)
  Fixpoint progress_ok (items : list item) (d : D) (prev : list outcome) (msgs : list (list outcome)) : Prop :=
    match msgs with
    | [] => True
    | m :: ms =>
        (length m = length prev /\ exists i o, nth_error prev i = Some Outstanding /\
           own_outcome D def_run expr_run items d i o /\ nth_error m i = Some o /\
           forall j, j <> i -> nth_error m j = nth_error prev j) /\
        progress_ok items d m ms
    end.
End Progress.

Definition is_adef (a : action) : bool := match a with ADef => true | _ => false end.

(** How many of the items before [i] are definitions. *)
Definition defs_below (items : list item) (i : nat) : nat :=
  length (filter (fun it => match it_type it with IExpr => false | _ => true end) (firstn i items)).
