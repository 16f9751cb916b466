(** C41: batch processing.  A schedule says how parallel expressions interleave and when a cancel request comes. *)
From Coq Require Import String List Arith Bool Sorted.
From Verif Require Import Model.Base Model.Batch Spec.BatchSpec Proofs.BatchProofs.
Import ListNotations.

(** Each item has one outcome: its own if it was run, else outstanding, or cancelled if there was a cancel request;
    no item is run twice. *)
Theorem C41_outcomes : forall D def_run expr_run items (d : D) ff par l res ran msgs,
  process def_run expr_run ff par items d l = Some (res, ran, msgs) ->
  length res = length items /\ NoDup ran /\
  forall i, (In i ran -> exists o, nth_error res i = Some o /\ own_outcome D def_run expr_run items d i o) /\
            (i < length items -> ~ In i ran ->
               (In ACancel l -> nth_error res i = Some Cancelled) /\ (~ In ACancel l -> nth_error res i = Some Outstanding)).
Proof. exact outcomes. Qed.
Print Assumptions C41_outcomes.

(** Without fail-fast every item is run, whatever the schedule, failures and cancel requests. *)
Theorem C41_all : forall D def_run expr_run items (d : D) par l res ran msgs,
  process def_run expr_run false par items d l = Some (res, ran, msgs) -> forall i, i < length items -> In i ran.
Proof. exact all_run. Qed.
Print Assumptions C41_all.

(** With fail-fast an expression is run exactly if, when it is picked up, there was no cancel request, no definition
    fails, and no expression that has finished failed. *)
Theorem C41_fail_fast : forall D def_run expr_run items (d : D) par l1 i l2 res ran msgs,
  process def_run expr_run true par items d (l1 ++ AStart i :: l2) = Some (res, ran, msgs) ->
  In i ran <-> ~ In ACancel l1 /\ (forall j, is_def items j -> succeeds D def_run expr_run items d j = Some true) /\
               (forall j, In (AFinish j) l1 -> succeeds D def_run expr_run items d j = Some true).
Proof. exact start_spec. Qed.
Print Assumptions C41_fail_fast.

(** Each expression is picked up. *)
Theorem C41_picked_up : forall D def_run expr_run items (d : D) ff par l res ran msgs,
  process def_run expr_run ff par items d l = Some (res, ran, msgs) -> forall i, In (AStart i) l <-> is_xpr items i.
Proof. exact started. Qed.
Print Assumptions C41_picked_up.

(** A definition is run exactly if the earlier ones succeed and no cancel request came before its turn. *)
Theorem C41_definitions : forall D def_run expr_run items (d : D) par l res ran msgs i, is_def items i ->
  process def_run expr_run true par items d l = Some (res, ran, msgs) ->
  In i ran <-> (forall j, is_def items j -> j < i -> succeeds D def_run expr_run items d j = Some true) /\
    exists l1 l2, l = l1 ++ ADef :: l2 /\ ~ In ACancel l1 /\ length (filter is_adef l1) = defs_below items i.
Proof. exact def_exact. Qed.
Print Assumptions C41_definitions.

(** A sequential run takes definitions first, then expressions, each in order; *)
Theorem C41_order : forall D def_run expr_run items (d : D) ff l res ran msgs,
  process def_run expr_run ff false items d l = Some (res, ran, msgs) -> StronglySorted (earlier items) ran.
Proof. exact in_order. Qed.
Print Assumptions C41_order.

(** and with fail-fast, if not cancelled, stops right after the first failure. *)
Theorem C41_first_failure : forall D def_run expr_run items (d : D) l res ran msgs,
  process def_run expr_run true false items d l = Some (res, ran, msgs) -> ~ In ACancel l ->
  forall i, i < length items ->
    In i ran <-> forall j, earlier items j i -> succeeds D def_run expr_run items d j = Some true.
Proof. exact fail_fast_seq. Qed.
Print Assumptions C41_first_failure.

(** There is one progress message for each item that is run; each turns one item from outstanding to its outcome; the
    last message agrees with the results on the items that were run. *)
Theorem C41_progress : forall D def_run expr_run items (d : D) ff par l res ran msgs,
  process def_run expr_run ff par items d l = Some (res, ran, msgs) ->
  length msgs = length ran /\ progress_ok D def_run expr_run items d (repeat Outstanding (length items)) msgs /\
  forall i, i < length items ->
    (In i ran -> nth_error (last msgs (repeat Outstanding (length items))) i = nth_error res i) /\
    (~ In i ran -> nth_error (last msgs (repeat Outstanding (length items))) i = Some Outstanding).
Proof. exact messages. Qed.
Print Assumptions C41_progress.

(** Every run can be completed. *)
Theorem C41_completes : forall D def_run expr_run items (d : D) ff par l s,
  acts def_run expr_run ff par items (batch_init items d) l = Some s ->
  exists l' r, ~ In ACancel l' /\ process def_run expr_run ff par items d (l ++ l') = Some r.
Proof. exact completes. Qed.
Print Assumptions C41_completes.

Section Examples.
  (** Definitions: a list of names; an expression succeeds if its code is a defined name. *)
  Let dr (it : item) (d : list str) : bool * list str :=
    if existsb (str_eqb (it_code it)) d then (false, d) else (true, it_code it :: d).
  Let xr (it : item) (d : list str) : bool := existsb (str_eqb (it_code it)) d.
  Let items := [Item (lit "bad") IExpr; Item (lit "foo") IImpl; Item (lit "foo") IExpr].

  Example C41_example_sequential :
    process dr xr true false items [] [ADef; AStart 0; AReport 0; AFinish 0; AStart 2] =
      Some ([Failed; Success; Outstanding], [1; 0], [[Outstanding; Success; Outstanding]; [Failed; Success; Outstanding]]) /\
    process dr xr false false items [] [ADef; AStart 0; AReport 0; AFinish 0; AStart 2; AReport 2; AFinish 2] =
      Some ([Failed; Success; Success], [1; 0; 2],
        [[Outstanding; Success; Outstanding]; [Failed; Success; Outstanding]; [Failed; Success; Success]]).
  Proof. vm_compute. auto. Qed.

  (** In parallel, an expression picked up before the failure is noticed still runs. *)
  Example C41_example_parallel :
    process dr xr true true items [] [ADef; AStart 0; AReport 0; AStart 2; AFinish 0; AReport 2; AFinish 2] =
      Some ([Failed; Success; Success], [1; 0; 2],
        [[Outstanding; Success; Outstanding]; [Failed; Success; Outstanding]; [Failed; Success; Success]]) /\
    process dr xr true true items [] [ADef; ACancel; AStart 2; AStart 0] =
      Some ([Cancelled; Success; Cancelled], [1], [[Outstanding; Success; Outstanding]]).
  Proof. vm_compute. auto. Qed.

  (** Finding: the documentation says that cancellation is checked before each item; without fail-fast it is not. *)
  Theorem C41_cancel_refuted : exists its (d : list str) l res ran msgs, hd_error l = Some ACancel /\ its <> [] /\
    process dr xr false true its d l = Some (res, ran, msgs) /\ forall i, i < length its -> nth_error res i = Some Success.
  Proof.
    exists [Item (lit "foo") IImpl], [], [ACancel; ADef], [Success], [0], [[Success]].
    split; [reflexivity|]. split; [discriminate|]. split; [vm_compute; reflexivity|].
    intros [|i] H; [reflexivity|]. cbn in H. apply Nat.succ_lt_mono in H. now apply Nat.nlt_0_r in H.
  Qed.
End Examples.
