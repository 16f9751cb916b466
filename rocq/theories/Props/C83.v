(** C83: from the text of a batch file to what is run. *)
From Coq Require Import String List NArith Bool Arith Sorted.
From Verif Require Import Model.Base Model.Utf Model.Parse Model.File Model.Batch Model.CommandLine Model.BatchText
  Spec.ParseSpec Spec.FileSpec Spec.BatchSpec Spec.BatchTextSpec Proofs.ParseSamples Proofs.BatchTextProofs.
Import ListNotations.

(** A text that is read as a batch has the items that are written: types, then implementations, then expressions, each in the
    order of the text, with text and line; and the directives that are written. *)
Theorem C83_items : forall k, sane k -> forall text b, parse_str k text = Ok b ->
  exists f xs, parse_file k text = Ok f /\ contains k text xs /\
    bt_items b = of_type IType xs ++ of_type IImpl xs ++ of_type IExpr xs /\
    (bt_par b = false <-> In NoParallelise (fl_dirs f)) /\ (bt_ff b = true <-> In FailFast (fl_dirs f)).
Proof. exact parsed. Qed.
Print Assumptions C83_items.

(** When it is run, whatever the threads do, definitions are run first, one after the other in that order, and expressions
    after them.  Unless the text says to fail fast everything is run.  If it says not to run in parallel, items are run in
    that order; with fail-fast up to and with the first that fails. *)
Theorem C83_runs : forall D def_run expr_run k, sane k -> forall text b, parse_str k text = Ok b ->
  exists f xs, parse_file k text = Ok f /\ contains k text xs /\
    bt_items b = of_type IType xs ++ of_type IImpl xs ++ of_type IExpr xs /\
    forall (d : D) l res ran msgs, process def_run expr_run (bt_ff b) (bt_par b) (map snd (bt_items b)) d l = Some (res, ran, msgs) ->
    let n := length (of_type IType xs ++ of_type IImpl xs) in
    let ok i := succeeds D def_run expr_run (map snd (bt_items b)) d i = Some true in
    (exists m rest, ran = seq 0 m ++ rest /\ m <= n /\ forall i, In i rest -> n <= i < length (bt_items b)) /\
    (~ In FailFast (fl_dirs f) -> forall i, i < length (bt_items b) -> In i ran) /\
    (In NoParallelise (fl_dirs f) -> ~ In ACancel l -> exists m, ran = seq 0 m /\ m <= length (bt_items b) /\
       (In FailFast (fl_dirs f) -> (forall i, S i < m -> ok i) /\ (m < length (bt_items b) -> exists i, m = S i /\ ~ ok i))).
Proof. exact run_text. Qed.
Print Assumptions C83_runs.

Section Examples.
  Let lines (ls : list string) : str := flat_map (fun l => lit l ++ [nl]) ls.
  (** An expression first, then an implementation, a type, and an expression over two lines. *)
  Let text : str := lines ["[no-parallelise fail-fast]"; ""; "# shows"; "a 1"; ""; "def f () { g }"; ""; "def-ty T { x:Num }"; ""; "b |"; " c"]%string.
  Let items : list (nat * Batch.item) :=
    [(8, Batch.Item (lit "def-ty T { x:Num }") IType); (6, Batch.Item (lit "def f () { g }") IImpl);
     (4, Batch.Item (lit "a 1") IExpr); (10, Batch.Item (lit "b |" ++ [nl] ++ lit " c") IExpr)].
  Example C83_example : parse_str ascii text = Ok (MkBatch false true items).
  Proof. vm_compute. reflexivity. Qed.

  (** Run where expressions fail: the second expression is not run. *)
  Example C83_example_run :
    process (fun _ d => (true, S d)) (fun _ d => Nat.eqb d 0) true false (map snd items) 0 [ADef; ADef; AStart 2; AReport 2; AFinish 2; AStart 3] =
    Some ([Success; Success; Failed; Outstanding], [0; 1; 2],
      [[Success; Outstanding; Outstanding; Outstanding]; [Success; Success; Outstanding; Outstanding]; [Success; Success; Failed; Outstanding]]).
  Proof. vm_compute. reflexivity. Qed.

  (** Finding: a comment on its own is run as an expression without text, which does not parse; with fail-fast the expressions
      below are not run, although they parse. *)
  Theorem C83_comment_refuted : exists t b l res msgs, t = lines ["[no-parallelise fail-fast]"; ""; "# note"; ""; "a 1"]%string /\
    parse_str ascii t = Ok b /\
    (let parses it := match expression ascii (Batch.it_code it) with POk _ _ => true | _ => false end in
     process (fun _ d => (true, d)) (fun it _ => parses it) (bt_ff b) (bt_par b) (map snd (bt_items b)) tt l = Some (res, [0], msgs) /\
     map (fun x => parses (snd x)) (bt_items b) = [false; true]).
  Proof.
    eexists _, _, [AStart 0; AReport 0; AFinish 0; AStart 1], _, _. split; [reflexivity|]. split; [vm_compute; reflexivity|]. split; vm_compute; reflexivity.
  Qed.
End Examples.
