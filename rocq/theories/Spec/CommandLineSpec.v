(** What running files from the command line should do. *)
From Coq Require Import List Arith Bool NArith Sorted.
From Verif Require Import Model.Base Model.FsMap Model.Batch Model.CommandLine.
Import ListNotations.

(** The paths named by arguments: those which some argument matches, each once, in the order of paths. *)
Definition named (glob : str -> option (list path)) (values : list str) (ps : list path) : Prop :=
  StronglySorted (fun a b => path_cmp a b = Lt) ps /\
  forall p, In p ps <-> exists v l, In v values /\ glob v = Some l /\ In p l.

(** An argument which cannot be used. *)
Definition bad (glob : str -> option (list path)) (v : str) : Prop := glob v = None \/ glob v = Some [].

(** Definitions after loading files in turn. *)
Inductive loaded {D} (load : path -> D -> option D) : list path -> D -> D -> Prop :=
| loaded_nil : forall d, loaded load [] d d
| loaded_cons : forall p ps d d' d'', load p d = Some d' -> loaded load ps d' d'' -> loaded load (p :: ps) d d''.

(** The batches processed, and what is written to either stream. *)
Definition runs {D} (tr : list (event D)) : list (path * D * list nat * list outcome) :=
  flat_map (fun e => match e with ERun p d ran outs => [(p, d, ran, outs)] | _ => [] end) tr.
Definition stdout {D} (tr : list (event D)) : list line := flat_map (fun e => match e with EOut l => [l] | _ => [] end) tr.
Definition stderr {D} (tr : list (event D)) : list line := flat_map (fun e => match e with EErr l => [l] | _ => [] end) tr.

(** A run of a batch: without a cancel request, from the definitions given. *)
Definition is_run {D} (def_run : item -> D -> bool * D) (expr_run : item -> D -> bool) (read : path -> option batch) (d : D)
    (p : path) (r : path * D * list nat * list outcome) : Prop :=
  exists b l ran outs msgs, r = (p, d, ran, outs) /\ read p = Some b /\ ~ In ACancel l /\
    process def_run expr_run (bt_ff b) (bt_par b) (map snd (bt_items b)) d l = Some (outs, ran, msgs).

Definition failing {D} (r : path * D * list nat * list outcome) : Prop := In Failed (snd r).

(** The report of a run: a line for each item, then the errors of those which failed. *)
Definition reported {D} (read : path -> option batch) (r : path * D * list nat * list outcome) : list line :=
  match read (fst (fst (fst r))) with
  | None => []
  | Some b =>
      let rows := combine (bt_items b) (snd r) in
      map (fun x => LItem (fst (fst x)) (it_type (snd (fst x))) (snd x)) rows ++
      flat_map (fun x => match snd x with Failed => [LError (fst (fst x)) (it_type (snd (fst x)))] | _ => [] end) rows
  end.
Definition announced {D} (read : path -> option batch) (r : path * D * list nat * list outcome) : list line :=
  match read (fst (fst (fst r))) with
  | None => []
  | Some b => [LCount (length (bt_items b)) (fst (fst (fst r)))]
  end.
