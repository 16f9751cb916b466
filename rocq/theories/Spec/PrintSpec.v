(** Elision: the front and the back are shown around a marker that counts what is left out. *)
From Coq Require Import List Arith.
From Verif Require Import Model.Base Model.Value Model.Print.
Import ListNotations.

(** [shown] shows [l] whole, or its first [a] and last [b] elements around [mark n], [n] left out. *)
Definition elided {A B} (show : A -> B) (mark : nat -> B) (a b : nat) (l : list A) (shown : list B) : Prop :=
  exists front omitted back, l = front ++ omitted ++ back /\
    length front = a /\ length back = b /\
    shown = map show front ++ mark (length omitted) :: map show back.

(** A printed row. *)
Definition shows_row (header : bool) (r : row) (cells : list pcell) : Prop :=
  if Nat.leb (length r) 7 then cells = map CEnt r
  else elided CEnt (fun n => if header then CColsElided n else CDots) 3 3 r cells.
