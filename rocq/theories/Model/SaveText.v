(** The text that [save] writes. *)
From Coq Require Import String List ZArith NArith Bool Arith.
From Verif Require Import Model.Base Model.Value Model.TableCrate Model.TableOps.
Import ListNotations.
Open Scope N_scope.

Section SaveText.
(** [char::is_printable], [char::is_grapheme_extended] of the standard library *)
Variables (printable extends : N -> bool).
(** the numfmt crate; print.rs:138-141 with the kserd crate *)
Variables (fmt_num : Z -> str) (fmt_ogma : value -> str).

(** [char::escape_unicode]: [\u{..}] in lower case, without leading zeroes *)
Definition hex_digit (d : N) : N := if d <? 10 then 48 + d else 87 + d.
Fixpoint hex_digits (fuel : nat) (n : N) (acc : str) : str :=
  match fuel with
  | O => acc
  | S fuel => let acc := hex_digit (n mod 16) :: acc in if n <? 16 then acc else hex_digits fuel (n / 16) acc
  end.
Definition escape_unicode (c : N) : str := [92; 117; 123] ++ hex_digits (S (N.size_nat c)) c [] ++ [125].
(** [char::escape_debug_ext]; [first]: whether combining characters are escaped *)
Definition escape_char (first : bool) (c : N) : str :=
  match c with
  | 0 => [92; 48] | 9 => [92; 116] | 13 => [92; 114] | 10 => [92; 110]
  | 34 | 39 | 92 => [92; c]
  | _ => if first && extends c then escape_unicode c else if printable c then [c] else escape_unicode c
  end.
(** [str::escape_debug] *)
Definition escape_debug (s : str) : str :=
  match s with [] => [] | c :: s => escape_char true c ++ flat_map (escape_char false) s end.

(** output/print.rs:122-135.  Numbers of rows and columns are written in decimal. *)
Definition fmt_cell (e : ent) : str :=
  match e with
  | ENil | EObj VNil => lit "-"
  | ENum n | EObj (VNum n) => fmt_num n
  | EObj (VBool b) => if b then lit "true" else lit "false"
  | EObj (VStr s) => s
  | EObj (VTab t) => lit "<table [" ++ dec (rows_len t) ++ lit "," ++ dec (cols_len t) ++ lit "]>"
  | EObj (VTabRow _ _ _) => lit "<table row>"
  | EObj v => fmt_ogma v
  end.

(** io.rs:358-374 *)
Definition quoted_for (c : N) : bool := (c =? 44) || (c =? 34) || (c =? 13) || (c =? 10).
Definition write_cell (e : ent) : str :=
  match e with
  | ENil | EObj VNil => []
  | e => let s := fmt_cell e in if existsb quoted_for s then [34] ++ escape_debug s ++ [34] else s
  end.
(** io.rs:376-404: what is written so far, and whether a separator comes first *)
Definition write_row (r : row) (w : str) : str :=
  fst (fold_left (fun st e => ((if snd st : bool then fst st ++ [44] else fst st) ++ write_cell e, true)) r (w, false)).
Definition write_table (t : table) : str :=
  fst (fold_left (fun st r => (write_row r (if snd st : bool then fst st ++ [10] else fst st), true)) t ([], false)).
Definition write_file (v : value) : str :=
  match v with
  | VTab t => write_table t
  | v => fmt_cell (ent_of_val v)
  end.
End SaveText.
