(** C82: running files from the command line. *)
From Coq Require Import String List Arith Bool NArith Sorted.
From Verif Require Import Model.Base Model.FsMap Model.Batch Model.CommandLine Spec.BatchSpec Spec.CommandLineSpec Proofs.CommandLineProofs.
Import ListNotations.

Notation values def := (match def with Some x => x | None => [] end).

(** If the process exits, it loaded the definition files, each once, in the order of paths; then read all files; then ran
    them in the order of paths, each from the same definitions, up to the first with an item that fails.  The exit code is 0
    exactly if all were run and nothing failed. *)
Theorem C82_runs : forall D glob load read def_run expr_run (start : D) quiet def files scheds tr c,
  main glob load read def_run expr_run start quiet def files scheds = Some (tr, Exit c) ->
  exists defs fs d done rest tr',
    named glob (values def) defs /\ named glob files fs /\ loaded load defs start d /\
    tr = map ELoad defs ++ map ERead fs ++ tr' /\
    fs = done ++ rest /\ Forall2 (is_run def_run expr_run read d) done (runs tr') /\
    (c = 0 /\ rest = [] /\ Forall (fun r => ~ failing r) (runs tr') \/
     c = 1 /\ exists rs r, runs tr' = rs ++ [r] /\ Forall (fun r => ~ failing r) rs /\ failing r).
Proof. exact main_runs. Qed.
Print Assumptions C82_runs.

(** With exit code 0, each item of each file named was run and succeeded, whatever the threads did. *)
Theorem C82_zero : forall D glob load read def_run expr_run (start : D) quiet def files scheds tr,
  main glob load read def_run expr_run start quiet def files scheds = Some (tr, Exit 0) ->
  forall v l p, In v files -> glob v = Some l -> In p l ->
  exists b d ran, read p = Some b /\ In (p, d, ran, repeat Success (length (bt_items b))) (runs tr) /\
    forall i, i < length (bt_items b) -> In i ran.
Proof. exact main_zero. Qed.
Print Assumptions C82_zero.

(** What is written: the report of a file without failures goes to the standard output unless quiet, that of the file which
    failed to the standard error. *)
Theorem C82_streams : forall D glob load read def_run expr_run (start : D) quiet def files scheds tr c,
  main glob load read def_run expr_run start quiet def files scheds = Some (tr, Exit c) ->
  exists good bad, runs tr = good ++ bad /\ Forall (fun r => ~ failing r) good /\
    (c = 0 /\ bad = [] \/ c = 1 /\ exists r, bad = [r] /\ failing r) /\
    stdout tr = (if quiet then [] else flat_map (fun r => announced read r ++ reported read r) good ++ flat_map (announced read) bad) /\
    stderr tr = flat_map (reported read) bad.
Proof. exact main_streams. Qed.
Print Assumptions C82_streams.

(** It panics exactly if an argument is not a pattern or matches nothing, definitions do not load, or a file does not parse; *)
Theorem C82_panics : forall D glob load read def_run expr_run (start : D) quiet def files scheds r,
  main glob load read def_run expr_run start quiet def files scheds = Some r ->
  (snd r = Panicked <->
   (exists v, In v (values def ++ files) /\ bad glob v) \/
   (files <> [] /\ exists defs fs, named glob (values def) defs /\ named glob files fs /\
      ((forall d, ~ loaded load defs start d) \/ exists p, In p fs /\ read p = None))).
Proof. exact panics. Qed.
Print Assumptions C82_panics.

(** and then nothing was run or reported. *)
Theorem C82_nothing_run : forall D glob load read def_run expr_run (start : D) quiet def files scheds tr,
  main glob load read def_run expr_run start quiet def files scheds = Some (tr, Panicked) ->
  runs tr = [] /\ stdout tr = [] /\ stderr tr = [].
Proof. exact panic_silent. Qed.
Print Assumptions C82_nothing_run.

(** The shell is started exactly if no files are given, with the definition files. *)
Theorem C82_shell : forall D glob load read def_run expr_run (start : D) quiet def files scheds tr defs,
  main glob load read def_run expr_run start quiet def files scheds = Some (tr, Shell defs) <->
  tr = [] /\ files = [] /\ (forall v, In v (values def) -> ~ bad glob v) /\ named glob (values def) defs.
Proof. exact shell. Qed.
Print Assumptions C82_shell.

(** Order and repetition of arguments do not matter. *)
Theorem C82_arguments : forall D glob load read def_run expr_run (start : D) quiet def def' files files' scheds,
  incl def def' -> incl def' def -> incl files files' -> incl files' files ->
  main glob load read def_run expr_run start quiet (Some def) files scheds =
  main glob load read def_run expr_run start quiet (Some def') files' scheds.
Proof. exact arguments. Qed.
Print Assumptions C82_arguments.

(** There is always a way for the threads to go on to the end. *)
Theorem C82_completes : forall D glob load read def_run expr_run (start : D) quiet def files,
  exists scheds r, main glob load read def_run expr_run start quiet def files scheds = Some r.
Proof. exact main_completes. Qed.
Print Assumptions C82_completes.

Section Examples.
  (** Definitions are names.  A definition file [x] adds [x], and [a] needs [b].  An expression succeeds if its code is defined. *)
  Let gl (v : str) : option (list path) :=
    if str_eqb v (lit "*") then Some [[lit "y"]; [lit "x"]] else if str_eqb v (lit "?") then Some [] else Some [[v]].
  Let ld (p : path) (d : list str) : option (list str) :=
    match p with
    | [x] => if str_eqb x (lit "a") && negb (existsb (str_eqb (lit "b")) d) then None else Some (x :: d)
    | _ => None
    end.
  Let rd (p : path) : option batch :=
    match p with
    | [x] => if str_eqb x (lit "z") then None else
             Some (MkBatch false true [(1, Item (lit "new") IImpl); (3, Item (if str_eqb x (lit "y") then lit "c" else lit "b") IExpr)])
    | _ => None
    end.
  Let dr (it : item) (d : list str) : bool * list str := (negb (existsb (str_eqb (it_code it)) d), it_code it :: d).
  Let xr (it : item) (d : list str) : bool := existsb (str_eqb (it_code it)) d.
  Let sch : list action := [ADef; AStart 1; AReport 1; AFinish 1].

  (** Both files of a pattern, one also named; [x] succeeds, [y] fails.  Both define [new]: neither sees what the other defines. *)
  Example C82_example :
    main gl ld rd dr xr [] false (Some [lit "b"]) [lit "y"; lit "*"] [sch; sch] =
    Some ([ELoad [lit "b"]; ERead [lit "x"]; ERead [lit "y"];
           EOut (LCount 2 [lit "x"]); ERun [lit "x"] [lit "b"] [0; 1] [Success; Success];
           EOut (LItem 1 IImpl Success); EOut (LItem 3 IExpr Success);
           EOut (LCount 2 [lit "y"]); ERun [lit "y"] [lit "b"] [0; 1] [Success; Failed];
           EErr (LItem 1 IImpl Success); EErr (LItem 3 IExpr Failed); EErr (LError 3 IExpr)], Exit 1) /\
    main gl ld rd dr xr [] true (Some [lit "b"]) [lit "x"] [sch] =
    Some ([ELoad [lit "b"]; ERead [lit "x"]; ERun [lit "x"] [lit "b"] [0; 1] [Success; Success]], Exit 0) /\
    main gl ld rd dr xr [] false None [lit "x"; lit "z"] [sch; sch] = Some ([ERead [lit "x"]; ERead [lit "z"]], Panicked) /\
    main gl ld rd dr xr [] false (Some [lit "?"]) [] [] = Some ([], Panicked) /\
    main gl ld rd dr xr [] false (Some [lit "b"]) [] [] = Some ([], Shell [[lit "b"]]).
  Proof. vm_compute. auto 10. Qed.

  (** Finding: definition files are not loaded in the order given.  Given [b] and then [a], which needs [b], loading would
      succeed in that order, but the process panics. *)
  Theorem C82_order_refuted : exists scheds,
    loaded ld [[lit "b"]; [lit "a"]] [] [lit "a"; lit "b"] /\
    main gl ld rd dr xr [] false (Some [lit "b"; lit "a"]) [lit "x"] scheds = Some ([ELoad [lit "a"]], Panicked).
  Proof.
    exists [sch]. split; [|vm_compute; reflexivity]. repeat (econstructor; [vm_compute; reflexivity|]). constructor.
  Qed.

  (** Finding: a file after one that fails is not run, and no line says so, even if none asks to fail fast. *)
  Theorem C82_rest_refuted : exists rd' scheds tr, (forall p b, rd' p = Some b -> bt_ff b = false) /\
    main gl ld rd' dr xr [] false None [lit "x"; lit "y"] scheds = Some (tr, Exit 1) /\
    length (runs tr) = 1 /\ ~ In (LCount 2 [lit "y"]) (stdout tr ++ stderr tr).
  Proof.
    exists (fun p => option_map (fun b => MkBatch (bt_par b) false (bt_items b)) (rd p)), [sch; sch]. eexists. split; [|split; [vm_compute; reflexivity|split; [vm_compute; reflexivity|]]].
    - intros p b H. destruct (rd p); [|discriminate]. injection H as <-. reflexivity.
    - vm_compute. intuition discriminate.
  Qed.
End Examples.
