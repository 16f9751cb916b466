(** The paragraph a line of a document is in. *)
From Coq Require Import List NArith Bool.
From Verif Require Import Model.Base.
Import ListNotations.
Set Implicit Arguments.

Section Excerpt.
Variables (ws : N -> bool) (ls : list str).

Definition empty_line (k : nat) : Prop := exists l, nth_error ls k = Some l /\ Forall (fun c => ws c = true) l.
Definition full_line (k : nat) : Prop := exists l, nth_error ls k = Some l /\ ~ Forall (fun c => ws c = true) l.
Definition comment_line (k : nat) : Prop := exists l, nth_error ls k = Some (35%N :: l).

(** Lines [i] up to [j] are what is taken for the definition at [line]: the lines before it down to an empty one, less
    comments at the top, the line itself, and those after it up to an empty one. *)
Record excerpt (line i j : nat) : Prop := {
  ex_bounds : i <= line /\ i <= j /\ j <= length ls;
  ex_before : forall k, i <= k < line -> k < length ls -> full_line k;
  ex_top : i < line -> i < length ls -> ~ comment_line i;
  ex_comments : exists b, b <= i /\ i <= length ls /\ (b = 0 \/ empty_line (b - 1)) /\ forall k, b <= k < i -> full_line k /\ comment_line k;
  ex_line : line < length ls -> line < j;
  ex_after : forall k, line < k < j -> full_line k;
  ex_end : j = length ls \/ line < j /\ empty_line j }.

Definition between (i j : nat) : list str := firstn (j - i) (skipn i ls).
End Excerpt.

(** Lines, each ended by a line feed. *)
Definition unlines (ls : list str) : str := concat (map (fun l => l ++ [10%N]) ls).
(** No carriage return is left at the end. *)
Definition no_return (l : str) : Prop := ~ exists a, l = a ++ [13%N].
