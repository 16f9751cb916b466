(** Comma separated values: how a text is read as a grid of texts. *)
From Coq Require Import String DecimalString List ZArith NArith.
From Verif Require Import Model.Base Model.Value.
Import ListNotations.
Open Scope N_scope.

(** A comma, a quote, and the ends of lines *)
Definition special (c : N) : Prop := In c [44; 34; 13; 10].
Definition plain (s : str) : Prop := forall c, In c s -> ~ special c.

Section Reads.
(** What is between quotes, and what is meant *)
Variable body : str -> str -> Prop.
(** A field is as written if there is nothing special in it, or else is between quotes. *)
Inductive field : str -> str -> Prop :=
| field_plain : forall s, plain s -> field s s
| field_quoted : forall w s, body w s -> field ([34] ++ w ++ [34]) s.
(** A line: fields, with commas between them *)
Inductive line : str -> list str -> Prop :=
| line_last : forall w s, field w s -> line w [s]
| line_more : forall w s v l, field w s -> line v l -> line (w ++ [44] ++ v) (s :: l).
(** A file: lines, each on its own *)
Inductive file : str -> list (list str) -> Prop :=
| file_last : forall w l, line w l -> file w [l]
| file_more : forall w l v g, line w l -> file v g -> file (w ++ [10] ++ v) (l :: g).
End Reads.

(** RFC 4180: a quote is doubled. *)
Inductive doubled : str -> str -> Prop :=
| doubled_end : doubled [] []
| doubled_char : forall c w s, c <> 34 -> doubled w s -> doubled (c :: w) (c :: s)
| doubled_quote : forall w s, doubled w s -> doubled (34 :: 34 :: w) (34 :: s).

(** Backslashes, as in the literals of Rust *)
Definition digit_value (d v : N) : Prop := (v < 10 /\ d = 48 + v) \/ (10 <= v < 16 /\ d = 87 + v).
Inductive hex_value : str -> N -> N -> Prop :=
| hex_end : forall n, hex_value [] n n
| hex_more : forall d v w n m, digit_value d v -> hex_value w (16 * n + v) m -> hex_value (d :: w) n m.
(** What a character behind a backslash means: [0], [t], [r], [n], a single or a double quote, a backslash *)
Definition escapes : list (N * N) := [(48, 0); (116, 9); (114, 13); (110, 10); (39, 39); (34, 34); (92, 92)].
Inductive slashed : str -> str -> Prop :=
| slashed_end : slashed [] []
| slashed_char : forall c w s, c <> 34 -> c <> 92 -> slashed w s -> slashed (c :: w) (c :: s)
| slashed_esc : forall e c w s, In (e, c) escapes -> slashed w s -> slashed (92 :: e :: w) (c :: s)
| slashed_hex : forall h c w s, hex_value h 0 c -> slashed w s -> slashed ([92; 117; 123] ++ h ++ [125] ++ w) (c :: s).

(** What is escaped at all *)
Definition escaped (printable extends : N -> bool) (first : Prop) (c : N) : Prop :=
  In c [0; 9; 10; 13; 34; 39; 92] \/ printable c = false \/ (first /\ extends c = true).
Definition has_escaped (printable extends : N -> bool) (s : str) : Prop :=
  exists i c, nth_error s i = Some c /\ escaped printable extends (i = O) c.

(** How often a character occurs *)
Definition times (c : N) (s : str) : nat := count_occ N.eq_dec s c.

(** What a value is to read as, given how numbers and values of defined types are written *)
Definition numeral (n : nat) : str := lit (DecimalString.NilEmpty.string_of_uint (Nat.to_uint n)).
Definition text_of (num : Z -> str) (ogma : value -> str) (v : value) : str :=
  match v with
  | VNil => []
  | VNum n => num n
  | VBool true => lit "true"
  | VBool false => lit "false"
  | VStr s => s
  | VTab t => lit "<table [" ++ numeral (length t) ++ lit "," ++ numeral (match t with r :: _ => length r | [] => 0 end) ++ lit "]>"
  | VTabRow _ _ _ => lit "<table row>"
  | VOgma _ _ _ => ogma v
  end.
Definition texts num ogma (t : table) : list (list str) := map (map (fun e => text_of num ogma (val_of_ent e))) t.
