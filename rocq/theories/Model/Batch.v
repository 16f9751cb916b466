(** Batch processing. *)
From Coq Require Import List Arith Bool.
From Verif Require Import Model.Base.
Import ListNotations.
Set Implicit Arguments.

(** ogma/src/rt/bat.rs:79-88 [ItemType], 61-71 [Outcome] (times and error texts are left out) *)
Inductive item_type := IExpr | IImpl | IType.
Inductive outcome := Success | Failed | Outstanding | Cancelled.
Record item := Item { it_code : str; it_type : item_type }.

Section Batch.
  (** The definitions, and what processing a definition or an expression does
      ([lang::defs::process_definition], [rt::process_expression]): whether it succeeds, and for a definition the
      definitions afterwards, also when it fails. *)
  Variable D : Type.
  Variable def_run : item -> D -> bool * D.
  Variable expr_run : item -> D -> bool.

  (** bat.rs:73-77 *)
  Definition outcome_of (ok : bool) : outcome := if ok then Success else Failed.

  (** The state during [process]: the switches, the definitions, the reporter, and what is left to do. *)
  Record bstate := BState {
    b_cancelled : bool;              (* prog.cancelled() *)
    b_failure : bool;
    b_defs : D;
    b_results : list outcome;
    b_reporter : list outcome;
    b_sent : list (list outcome);    (* progress messages, last first *)
    b_todo_defs : list nat;
    b_todo_exprs : list nat;         (* not yet started *)
    b_running : list nat;            (* started *)
    b_reported : list nat;           (* evaluated and reported *)
    b_ran : list nat                 (* items evaluated, last first; ghost *)
  }.

  Fixpoint set_nth (i : nat) (o : outcome) (l : list outcome) : list outcome :=
    match l, i with
    | [], _ => []
    | _ :: l, 0 => o :: l
    | x :: l, S i => x :: set_nth i o l
    end.

  (** bat.rs:215-226, splitting the items *)
  Definition is_expr (it : item) : bool := match it_type it with IExpr => true | _ => false end.
  Definition split_batch (items : list item) : list nat * list nat :=
    fold_left (fun (dx : list nat * list nat) b =>
      let (d, x) := dx in
      if is_expr (snd b) then (d, x ++ [fst b]) else (d ++ [fst b], x))
      (combine (seq 0 (length items)) items) ([], []).

  (** bat.rs:191-226 *)
  Definition batch_init (items : list item) (d : D) : bstate :=
    let (defs, exprs) := split_batch items in
    BState false false d (repeat Outstanding (length items)) (repeat Outstanding (length items)) []
           defs exprs [] [] [].

  (** bat.rs:235 [stop] *)
  Definition stop (ff : bool) (s : bstate) : bool := ff && (b_cancelled s || b_failure s).

  (** What can happen next; in a parallel run expressions interleave freely. *)
  Inductive action :=
  | ACancel              (* the receiver asks to cancel *)
  | ADef                 (* the definition loop takes its next item *)
  | AStart (i : nat)     (* an expression is picked up *)
  | AReport (i : nat)    (* it was evaluated and the progress is sent *)
  | AFinish (i : nat).   (* the failure switch is set and the result kept *)

  Definition has (i : nat) (l : list nat) : bool := existsb (Nat.eqb i) l.
  Definition drop (i : nat) (l : list nat) : list nat := filter (fun j => negb (Nat.eqb i j)) l.
  Definition code_of (items : list item) (i : nat) : item := nth i items (Item [] IExpr).

  (** One action; [None] if it cannot happen.  bat.rs:238-252 the definition loop, 255-276 the closure [f],
      277-281 parallel or sequential, 350-362 [report_progress]. *)
  Definition act (ff par : bool) (items : list item) (s : bstate) (a : action) : option bstate :=
    match a with
    | ACancel => Some (BState true (b_failure s) (b_defs s) (b_results s) (b_reporter s) (b_sent s)
                         (b_todo_defs s) (b_todo_exprs s) (b_running s) (b_reported s) (b_ran s))
    | ADef =>
        match b_todo_defs s with
        | [] => None
        | i :: rest =>
            if stop ff s then   (* break *)
              Some (BState (b_cancelled s) (b_failure s) (b_defs s) (b_results s) (b_reporter s) (b_sent s)
                      [] (b_todo_exprs s) (b_running s) (b_reported s) (b_ran s))
            else
              let (ok, d) := def_run (code_of items i) (b_defs s) in
              let rep := set_nth i (outcome_of ok) (b_reporter s) in
              Some (BState (b_cancelled s) (b_failure s || negb ok) d (set_nth i (outcome_of ok) (b_results s)) rep
                      (rep :: b_sent s) rest (b_todo_exprs s) (b_running s) (b_reported s) (i :: b_ran s))
        end
    | AStart i =>
        let next := match b_todo_exprs s with j :: _ => Nat.eqb i j | [] => false end in
        let free := match b_running s, b_reported s with [], [] => true | _, _ => false end in
        if match b_todo_defs s with [] => true | _ => false end
           && has i (b_todo_exprs s) && (par || (next && free))
        then
          let todo := drop i (b_todo_exprs s) in
          if stop ff s then
            Some (BState (b_cancelled s) (b_failure s) (b_defs s)
                    (set_nth i (if b_cancelled s then Cancelled else Outstanding) (b_results s))
                    (b_reporter s) (b_sent s) [] todo (b_running s) (b_reported s) (b_ran s))
          else
            Some (BState (b_cancelled s) (b_failure s) (b_defs s) (b_results s) (b_reporter s) (b_sent s)
                    [] todo (i :: b_running s) (b_reported s) (i :: b_ran s))
        else None
    | AReport i =>
        if has i (b_running s) then
          let o := outcome_of (expr_run (code_of items i) (b_defs s)) in
          let rep := set_nth i o (b_reporter s) in
          Some (BState (b_cancelled s) (b_failure s) (b_defs s) (b_results s) rep (rep :: b_sent s)
                  (b_todo_defs s) (b_todo_exprs s) (drop i (b_running s)) (i :: b_reported s) (b_ran s))
        else None
    | AFinish i =>
        if has i (b_reported s) then
          let ok := expr_run (code_of items i) (b_defs s) in
          Some (BState (b_cancelled s) (b_failure s || negb ok) (b_defs s) (set_nth i (outcome_of ok) (b_results s))
                  (b_reporter s) (b_sent s)
                  (b_todo_defs s) (b_todo_exprs s) (b_running s) (drop i (b_reported s)) (b_ran s))
        else None
    end.

  Fixpoint acts (ff par : bool) (items : list item) (s : bstate) (l : list action) : option bstate :=
    match l with
    | [] => Some s
    | a :: l => match act ff par items s a with Some s => acts ff par items s l | None => None end
    end.

  Definition finished (s : bstate) : bool :=
    match b_todo_defs s, b_todo_exprs s, b_running s, b_reported s with [], [], [], [] => true | _, _, _, _ => false end.

  (** bat.rs:287-295, the last pass *)
  Definition final (s : bstate) : list outcome :=
    if b_cancelled s then map (fun o => match o with Outstanding => Cancelled | o => o end) (b_results s)
    else b_results s.

  (** bat.rs:179-298 [process] along a schedule: the results, the items evaluated in order, and the messages. *)
  Definition process (ff par : bool) (items : list item) (d : D) (l : list action)
    : option (list outcome * list nat * list (list outcome)) :=
    match acts ff par items (batch_init items d) l with
    | Some s => if finished s then Some (final s, rev (b_ran s), rev (b_sent s)) else None
    | None => None
    end.
End Batch.
