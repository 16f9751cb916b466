(** Lengths of characters in UTF-8 and UTF-16 and byte slicing of strings. *)
From Coq Require Import List ZArith NArith Bool.
From Verif Require Import Model.Base.
Import ListNotations.
Set Implicit Arguments.

(** [char::len_utf8] of core. *)
Definition len_utf8 (c : N) : nat :=
  if (c <? 128)%N then 1 else if (c <? 2048)%N then 2 else if (c <? 65536)%N then 3 else 4.

(** [char::len_utf16] of core. *)
Definition len_utf16 (c : N) : nat := if (c <? 65536)%N then 1 else 2.

(** Length in bytes of a string. *)
Fixpoint byte_len (s : str) : nat :=
  match s with [] => 0 | c :: s => len_utf8 c + byte_len s end.

(** [&s\[b..\]]: panics (None) unless [b] is a character boundary. *)
Fixpoint drop_bytes (b : nat) (s : str) : option str :=
  match b, s with
  | 0, _ => Some s
  | _, [] => None
  | _, c :: s => if Nat.leb (len_utf8 c) b then drop_bytes (b - len_utf8 c) s else None
  end.

(** [&s\[..b\]]: panics (None) unless [b] is a character boundary. *)
Fixpoint take_bytes (b : nat) (s : str) : option str :=
  match b, s with
  | 0, _ => Some []
  | _, [] => None
  | _, c :: s => if Nat.leb (len_utf8 c) b then option_map (cons c) (take_bytes (b - len_utf8 c) s) else None
  end.

(** [&s\[a..b\]] *)
Definition slice_bytes (a b : nat) (s : str) : res str :=
  if Nat.leb a b then
    match drop_bytes a s with
    | Some t => match take_bytes (b - a) t with Some r => Ok r | None => Panic end
    | None => Panic
    end
  else Panic.

(** [str::char_indices]: characters with their byte positions. *)
Fixpoint char_indices (b : nat) (s : str) : list (nat * N) :=
  match s with [] => [] | c :: s => (b, c) :: char_indices (b + len_utf8 c) s end.
