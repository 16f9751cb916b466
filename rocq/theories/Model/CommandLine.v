(** The command line of the program: which files are loaded and run, in which order, and what is reported. *)
From Coq Require Import List Arith Bool NArith.
From Verif Require Import Model.Base Model.FsMap Model.Batch.
Import ListNotations.
Set Implicit Arguments.

(** A relative path, by components. *)
Notation path := (list str).

(** ogma/src/rt/bat.rs:20-53 [Batch], [BatchItem]: an item with its line; comment and file are left out *)
Record batch := MkBatch { bt_par : bool; bt_ff : bool; bt_items : list (nat * item) }.

(** A line of a report, without colours, times and the texts of errors. *)
Inductive line :=
| LCount (n : nat) (p : path)                       (* processing n items from file p *)
| LItem (l : nat) (t : item_type) (o : outcome)     (* line l :: t :: o *)
| LError (l : nat) (t : item_type).                 (* --- Error line l :: t --- and the error *)

(** What the process does that can be seen from outside, in order. *)
Inductive event (D : Type) :=
| ELoad (p : path)                                  (* a definition file is loaded *)
| ERead (p : path)                                  (* a file is read and parsed *)
| ERun (p : path) (d : D) (ran : list nat) (outs : list outcome)  (* a batch is processed *)
| EOut (l : line)
| EErr (l : line).
Arguments ELoad {D} p.
Arguments ERead {D} p.
Arguments EOut {D} l.
Arguments EErr {D} l.

(** How the process ends: it goes on as the shell with the definition files, exits, or panics. *)
Inductive ending := Shell (defs : list path) | Exit (code : nat) | Panicked.

(** bin/main.rs:47 [paths.sort()].  Paths which compare equal are equal, so how the sort treats them does not show. *)
Fixpoint insert_path (p : path) (l : list path) : list path :=
  match l with
  | [] => [p]
  | q :: l' => match path_cmp p q with Gt => q :: insert_path p l' | _ => p :: l end
  end.
Definition sort_paths (l : list path) : list path := fold_right insert_path [] l.

(** bin/main.rs:48 [paths.dedup()] *)
Fixpoint dedup_from (last : path) (l : list path) : list path :=
  match l with
  | [] => []
  | p :: l => match path_cmp p last with Eq => dedup_from last l | _ => p :: dedup_from p l end
  end.
Definition dedup_paths (l : list path) : list path :=
  match l with [] => [] | p :: l => p :: dedup_from p l end.

Section Main.
  Variable D : Type.
  (** [glob::glob]: no result if the text is not a pattern; paths which cannot be read are left out of the model *)
  Variable glob : str -> option (list path).
  (** ogma/src/lang/defs.rs [Definitions::add_from_file]: the definitions afterwards, or none if it fails *)
  Variable load : path -> D -> option D.
  (** ogma/src/rt/bat.rs:139-152 [parse_file]: none if the file cannot be read or parsed *)
  Variable read : path -> option batch.
  (** processing of the items of a batch, see [Batch] *)
  Variable def_run : item -> D -> bool * D.
  Variable expr_run : item -> D -> bool.
  (** [Definitions::default] *)
  Variable start : D.

  (** bin/main.rs:27-51 [expand_globs] with [panic_on_empty]; none for a panic *)
  Fixpoint matches (values : list str) : option (list path) :=
    match values with
    | [] => Some []
    | v :: values =>
        match glob v with
        | None | Some [] => None
        | Some ps => match matches values with Some qs => Some (ps ++ qs) | None => None end
        end
    end.
  Definition expand_globs (values : list str) : option (list path) :=
    match matches values with Some ps => Some (dedup_paths (sort_paths ps)) | None => None end.

  (** bin/main.rs:72-79, adding definition files *)
  Fixpoint load_all (defs : list path) (d : D) : list (event D) * option D :=
    match defs with
    | [] => ([], Some d)
    | p :: defs =>
        match load p d with
        | None => ([ELoad p], None)
        | Some d => let (tr, r) := load_all defs d in (ELoad p :: tr, r)
        end
    end.

  (** bin/main.rs:83-102, parsing all files *)
  Fixpoint read_all (files : list path) : list (event D) * option (list batch) :=
    match files with
    | [] => ([], Some [])
    | p :: files =>
        match read p with
        | None => ([ERead p], None)
        | Some b =>
            match read_all files with
            | (tr, Some bs) => (ERead p :: tr, Some (b :: bs))
            | (tr, None) => (ERead p :: tr, None)
            end
        end
    end.

  Definition is_failed (o : outcome) : bool := match o with Failed => true | _ => false end.

  (** bin/main.rs:130-158, the report of a batch *)
  Definition report (b : batch) (outs : list outcome) : list line :=
    map (fun io => LItem (fst (fst io)) (it_type (snd (fst io))) (snd io)) (combine (bt_items b) outs) ++
    map (fun io => LError (fst (fst io)) (it_type (snd (fst io))))
        (filter (fun io => is_failed (snd io)) (combine (bt_items b) outs)).

  (** bin/main.rs:111-170 [process_and_print_batch] along a schedule; none if the schedule is not possible.  The channel for
      progress is a dummy: there are no cancel requests. *)
  Definition run_batch (p : path) (b : batch) (d : D) (verbose : bool) (sched : list action) : option (list (event D) * bool) :=
    if existsb (fun a => match a with ACancel => true | _ => false end) sched then None else
    match process def_run expr_run (bt_ff b) (bt_par b) (map snd (bt_items b)) d sched with
    | None => None
    | Some (outs, ran, _) =>
        let tr := (if verbose then [EOut (LCount (length (bt_items b)) p)] else []) ++ [ERun p d ran outs] in
        let rep := report b outs in
        if existsb is_failed outs then Some (tr ++ map EErr rep, false)
        else if verbose then Some (tr ++ map EOut rep, true)
        else Some (tr, true)
    end.

  (** bin/main.rs:104-106, each batch with a clone of the definitions, stopping at the first which fails *)
  Fixpoint run_all (fb : list (path * batch)) (d : D) (verbose : bool) (scheds : list (list action)) : option (list (event D) * bool) :=
    match fb, scheds with
    | [], _ => Some ([], true)
    | (p, b) :: fb, s :: scheds =>
        match run_batch p b d verbose s with
        | None => None
        | Some (tr, false) => Some (tr, false)
        | Some (tr, true) =>
            match run_all fb d verbose scheds with
            | None => None
            | Some (tr', ok) => Some (tr ++ tr', ok)
            end
        end
    | _ :: _, [] => None
    end.

  (** bin/main.rs:70-109 [process_files] *)
  Definition process_files (defs files : list path) (verbose : bool) (scheds : list (list action)) : option (list (event D) * ending) :=
    match load_all defs start with
    | (tr, None) => Some (tr, Panicked)
    | (tr, Some d) =>
        match read_all files with
        | (tr', None) => Some (tr ++ tr', Panicked)
        | (tr', Some bs) =>
            match run_all (combine files bs) d verbose scheds with
            | None => None
            | Some (tr'', ok) => Some (tr ++ tr' ++ tr'', Exit (if ok then 0 else 1))
            end
        end
    end.

  (** bin/main.rs:9-25 [main], with the arguments of bin/app.rs:7-19 *)
  Definition main (quiet : bool) (def : option (list str)) (files : list str) (scheds : list (list action))
    : option (list (event D) * ending) :=
    match match def with Some x => expand_globs x | None => Some [] end with
    | None => Some ([], Panicked)
    | Some defs =>
        match expand_globs files with
        | None => Some ([], Panicked)
        | Some [] => Some ([], Shell defs)
        | Some fs => process_files defs fs (negb quiet) scheds
        end
    end.
End Main.
