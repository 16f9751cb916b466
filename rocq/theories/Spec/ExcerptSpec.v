(** Text in lines. *)
From Coq Require Import String List ZArith NArith Bool Arith.
From Verif Require Import Model.Base Model.Utf.
Import ListNotations.
Set Implicit Arguments.

(** The text of a line. *)
Definition line_text (t : str) : Prop := ~ In 10%N t /\ forall x, t <> x ++ [13%N].
(** The end of a line. *)
Definition eol (e : str) : Prop := e = [10%N] \/ e = [13%N; 10%N].
(** Lines, each with its end. *)
Definition lines_text (ts : list (str * str)) : str := concat (map (fun l => fst l ++ snd l) ts).
(** Where a line may start: at the start of the text, or after a line feed. *)
Definition fresh (a : str) : Prop := a = [] \/ exists a', a = a' ++ [10%N].
(** What follows a line: the end of the line and anything, or nothing. *)
Definition follows (e b : str) : Prop := eol e \/ e = [] /\ b = [].

(** How wide text is shown: a tab takes four columns. *)
Definition wide (s : str) : nat := length s + 3 * count_occ N.eq_dec s 9%N.

(** White space at the two ends. *)
Definition all_white (white : N -> bool) (s : str) : Prop := Forall (fun c => white c = true) s.
Definition starts_ink (white : N -> bool) (s : str) : Prop := match s with c :: _ => white c = false | [] => True end.
Definition ends_ink (white : N -> bool) (s : str) : Prop := starts_ink white (rev s).

(** The least and greatest of some numbers. *)
Definition is_least (n : N) (l : list nat) : Prop := Forall (fun x => (n <= N.of_nat x)%N) l /\ (exists x, In x l /\ n = N.of_nat x).
Definition is_greatest (n : N) (l : list nat) : Prop := Forall (fun x => (N.of_nat x <= n)%N) l /\ (exists x, In x l /\ n = N.of_nat x).
