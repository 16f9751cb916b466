(** Printing of tables with rows and columns elided. *)
From Coq Require Import List ZArith NArith Bool Arith.
From Verif Require Import Model.Base Model.Value Model.TableCrate.
Import ListNotations.
Set Implicit Arguments.

(** ogma/src/output/print.rs:11-12 *)
Definition ROWS_LIM : nat := 30.
Definition COLS_LIM : nat := 7.

(** What a printed cell shows; the text of an entry ([fmt_cell], print.rs:122-135) is left out. *)
Inductive pcell :=
| CEnt (e : ent)             (* fmt_cell *)
| CDots                      (* "..." *)
| CColsElided (n : nat)      (* "{} cols elided" *)
| CRowsElided (n : nat).     (* "{} rows elided" *)

(** print.rs:87-119 [fmt_row]: [cells.take(take)] consumes, [cells.skip(skip)] goes on from there. *)
Definition fmt_row (r : row) (limit_col : bool) (cols_len : nat) (header : bool) : list pcell :=
  let (take, skip) := if limit_col then (3, cols_len - 6) else (cols_len, 0) in
  let cols := map CEnt (firstn take r) in
  if limit_col then
    cols ++ (if header then CColsElided (cols_len - 6) else CDots) :: map CEnt (skipn skip (skipn take r))
  else cols.

(** The text table: header if any, rows. *)
Inductive printed :=
| PEmpty                     (* "table is empty" *)
| PTable (head : option (list pcell)) (body : list (list pcell)).

(** print.rs:16-79 [print_table].  [header] is the flag of the table.  [cols_len - 1] panics (or makes an
    endless row, unchecked) for a table without columns. *)
Definition print_table (header : bool) (t : table) : res printed :=
  if is_empty t then Ok PEmpty else
  let limit_col := Nat.ltb COLS_LIM (cols_len t) in
  let limit_row := Nat.ltb ROWS_LIM (rows_len t) in
  let (head, rows) := if header then
      match t with
      | h :: d => (Some (fmt_row h limit_col (cols_len t) true), d)
      | [] => (None, [])
      end
    else (None, t) in
  let (take, skip) := if limit_row then (5, rows_len t - 11) else (rows_len t, 0) in
  let body r := fmt_row r limit_col (cols_len t) false in
  let top := map body (firstn take rows) in
  if limit_row then
    if negb limit_col && Nat.eqb (cols_len t) 0 then Panic else
    Ok (PTable head
      (top ++ (CRowsElided (rows_len t - 10 - (if header then 1 else 0)) ::
               repeat CDots (if limit_col then 6 else cols_len t - 1))
           :: map body (skipn skip (skipn take rows))))
  else Ok (PTable head top).
