(** Row-parallel evaluation and the column cache. *)
From Coq Require Import String List ZArith NArith Bool Lia.
From Verif Require Import Model.Base Model.Value Model.TableCrate.
Import ListNotations.
Set Implicit Arguments.

(** types.rs:725-739 [TableRow::col_idx]: first header cell that is the string. *)
Fixpoint hdr_position (name : str) (h : row) : option nat :=
  match h with
  | [] => None
  | e :: h =>
      match e with
      | EObj (VStr s) => if str_eqb s name then Some 0 else option_map S (hdr_position name h)
      | _ => option_map S (hdr_position name h)
      end
  end.
Definition col_idx (t : table) (name : str) : res nat :=
  match t with
  | [] => Err 10
  | h :: _ => match hdr_position name h with Some i => Ok i | None => Err 11 end
  end.

(** types.rs:741-751 [TableRow::entry_at] *)
Definition entry_at (t : table) (i j : nat) : res ent :=
  match get_cell t i j with Some e => Ok e | None => Panic end.

(** types.rs:753-766 [TableRow::cnv_value] *)
Definition cnv_value (e : ent) (exp : ty) : res value :=
  let v := val_of_ent e in
  if ty_eqb (ty_of v) exp then Ok v else Err 12.

(** types.rs:711 [TableRowColMap]: the cache of column indices. *)
Notation cache := (list (str * nat)).
Fixpoint cache_get (c : cache) (name : str) : option nat :=
  match c with
  | [] => None
  | (k, i) :: c => if str_eqb k name then Some i else cache_get c name
  end.

(** types.rs:776-801 [TableRow::entry], [TableRow::get_col_idx] *)
Definition cached_col_idx (t : table) (c : cache) (name : str) : res nat * cache :=
  match cache_get c name with
  | Some i => (Ok i, c)
  | None => match col_idx t name with
            | Ok i => (Ok i, (name, i) :: c)
            | Err e => (Err e, c)
            | Panic => (Panic, c)
            end
  end.
Definition row_entry (t : table) (i : nat) (c : cache) (name : str) : res ent * cache :=
  let (j, c) := cached_col_idx t c name in
  (let? j := j in entry_at t i j, c).

(** An expression evaluated on a table row: any computation that reads cells of that row by
    column name, adaptively, and ends with a result. *)
Inductive rowprog : Type :=
| RDone (r : res value)
| RAsk (name : str) (k : res ent -> rowprog).

Fixpoint run_rowprog (p : rowprog) (t : table) (i : nat) (c : cache) : res value * cache :=
  match p with
  | RDone r => (r, c)
  | RAsk name k => let (e, c) := row_entry t i c name in run_rowprog (k e) t i c
  end.

(** intrinsics/mod.rs:222-241 [par_over_tablerows].  Rayon hands every index from 1 on to some
    worker exactly once; each worker makes its own context ([for_each_init]) and reuses it for
    all its rows.  A callback has exclusive access to its buffer element and worker context; the
    only shared cell is the mutex holding the last error.  So a run is described by the order in
    which callbacks finish together with the worker of each: a list of (worker, row).
    A panicking callback makes rayon propagate the panic. *)
Record par_state (A C : Type) := ParState {
  ps_buf : list A;
  ps_ctx : list (nat * C);
  ps_err : option nat;
  ps_panic : bool
}.

Fixpoint ctx_get {C} (init : C) (m : list (nat * C)) (w : nat) : C :=
  match m with
  | [] => init
  | (k, c) :: m => if Nat.eqb k w then c else ctx_get init m w
  end.

Definition par_step {A C} (f : A -> C -> nat -> A * C * res unit) (init : C)
    (s : par_state A C) (ev : nat * nat) : par_state A C :=
  let (w, i) := ev in
  match nth_error (ps_buf s) i with
  | None => s
  | Some a =>
      let '(a', c', r) := f a (ctx_get init (ps_ctx s) w) i in
      ParState (set_nth i a' (ps_buf s)) ((w, c') :: ps_ctx s)
        (match r with Err e => Some e | _ => ps_err s end)
        (match r with Panic => true | _ => ps_panic s end)
  end.

Definition par_over_tablerows {A C} (f : A -> C -> nat -> A * C * res unit) (init : C)
    (sched : list (nat * nat)) (buf : list A) : res (list A) :=
  let s := fold_left (par_step f init) sched (ParState buf [] None false) in
  if ps_panic s then Panic
  else match ps_err s with Some e => Err e | None => Ok (ps_buf s) end.

(** The callback [*x = g(eval(row)?)?; Ok(())] that every caller passes: the element is written
    on success only. *)
Definition assign_cb {A C} (ev : C -> nat -> res value * C) (g : nat -> value -> res A)
    (a : A) (c : C) (i : nat) : A * C * res unit :=
  let (r, c') := ev c i in
  match rbind r (g i) with
  | Ok a' => (a', c', Ok tt)
  | Err e => (a, c', Err e)
  | Panic => (a, c', Panic)
  end.
