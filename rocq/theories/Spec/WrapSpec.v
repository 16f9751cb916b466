(** What wrapped text should look like. *)
From Coq Require Import List NArith Bool Arith.
From Verif Require Import Model.Base.
Import ListNotations.

Section Spec.
  Variable St : Type.
  Notation cell := (N * St)%type.
  Definition plain (s : list cell) : list N := map fst s.

  (** [lines s ls]: the text [s] has the lines [ls]; a line ends before the first \n or \r\n. *)
  Inductive lines : list cell -> list (list cell) -> Prop :=
  | lines_last : forall l, ~ In 10%N (plain l) -> lines l [l]
  | lines_nl : forall l a s ls, ~ In 10%N (plain l) -> (forall l' b, l <> l' ++ [(13%N, b)]) -> lines s ls -> lines (l ++ (10%N, a) :: s) (l :: ls)
  | lines_crnl : forall l a b s ls, ~ In 10%N (plain l) -> lines s ls -> lines (l ++ (13%N, b) :: (10%N, a) :: s) (l :: ls).

  (** What a line looks like: tabs as four spaces *)
  Inductive looks : list cell -> list cell -> Prop :=
  | looks_nil : looks [] []
  | looks_tab : forall a s t, looks s t -> looks ((9%N, a) :: s) ((32%N, a) :: (32%N, a) :: (32%N, a) :: (32%N, a) :: t)
  | looks_char : forall c a s t, c <> 9%N -> looks s t -> looks ((c, a) :: s) ((c, a) :: t).

  Variable chw : N -> nat.
  Definition wide (s : list cell) : nat := list_sum (map chw (plain s)).

  (** Rows of a line: each as long as it can be, but not wider than the window if no character is. *)
  Inductive filled (width : nat) : list (list cell) -> Prop :=
  | filled_last : forall r, filled width [r]
  | filled_next : forall r c r' rs, width < wide r + chw (fst c) -> filled width ((c :: r') :: rs) -> filled width (r :: (c :: r') :: rs).
End Spec.

Section Rows.
  Variable St : Type.
  Variable chw : N -> nat.
  (** The rows of a line: all of it, in rows that are filled, and none wider than the window if no character is *)
  Definition rows_of (width : nat) (l : list (N * St)) (rows : list (list (N * St))) : Prop :=
    concat rows = l /\ filled St chw width rows /\
    ((forall c, In c l -> chw (fst c) <= width) -> forall r, In r rows -> wide St chw r <= width).

  (** Rows as they are shown, tabs as four spaces *)
  Definition shown_rows_of (width : nat) (l : list (N * St)) (shown : list (list (N * St))) : Prop :=
    exists rows, rows_of width l rows /\ Forall2 (looks St) rows shown.

  (** The column [q] of a line with the rows [rows] is at the column [x] of the row [j]. *)
  Definition at_column (rows : list (list (N * St))) (q x j : nat) : Prop :=
    exists above row below, rows = above ++ row :: below /\ length above = j /\ x <= length row /\ length (concat above) + x = q.
End Rows.
