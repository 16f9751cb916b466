(** C50: stepping through suggestions. *)
From Coq Require Import String List NArith Bool.
From Verif Require Import Model.Base Model.Utf Model.Shell Spec.ShellSpec Proofs.CmplProofs.
Import ListNotations.

(** A request names the word before the cursor, and puts the completion state in step with the text. *)
Theorem C50_request : forall b c x y, shows b (x, y) ->
  exists c' rq front word, completions_request b c = Ok (c', rq) /\
    x = front ++ word /\ typed_word separator (x, y) word /\
    in_step c' b front word y /\ c_replace c' = word /\ c_items c' = [] /\ c_highlighted c' = None /\
    c_changeset c' = rq_changeset rq /\ rq_changeset rq = ((c_changeset c + 1) mod 2 ^ 128)%N /\
    rq_input rq = x ++ y /\ rq_cursor rq = byte_len x /\ rq_word rq = byte_len front.
Proof. exact request_separated. Qed.
Print Assumptions C50_request.

(** Whatever is done with the completions (stepping both ways, moving the cursor, escape, answers
    arriving), only the current word changes: the text left and right of it stays. *)
Theorem C50_frame : forall alnum ops t l m r, in_step (t_completions t) (t_input t) l m r ->
  exists t' m', cmpl_steps alnum ops t = Ok t' /\ in_step (t_completions t') (t_input t') l m' r /\
    c_replace (t_completions t') = c_replace (t_completions t).
Proof. exact cmpl_steps_frame. Qed.
Print Assumptions C50_frame.

(** Stepping forward shows each suggestion in turn in place of the word, then what was typed. *)
Theorem C50_next : forall alnum t l m r, in_step (t_completions t) (t_input t) l m r ->
  c_highlighted (t_completions t) = None -> c_items (t_completions t) <> [] ->
  (forall k s, nth_error (c_items (t_completions t)) k = Some s ->
     exists t', cmpl_steps alnum (repeat COpNext (S k)) t = Ok t' /\ shows (t_input t') (l ++ s, r)) /\
  (exists t', cmpl_steps alnum (repeat COpNext (S (length (c_items (t_completions t))))) t = Ok t' /\
     shows (t_input t') (l ++ c_replace (t_completions t), r) /\
     c_highlighted (t_completions t') = None /\ c_items (t_completions t') = c_items (t_completions t)).
Proof. exact cycle_next. Qed.
Print Assumptions C50_next.

(** Stepping backward goes through them from the last to the first. *)
Theorem C50_prev : forall alnum t l m r, in_step (t_completions t) (t_input t) l m r ->
  c_highlighted (t_completions t) = None -> c_items (t_completions t) <> [] ->
  (forall k s, nth_error (rev (c_items (t_completions t))) k = Some s ->
     exists t', cmpl_steps alnum (repeat COpPrev (S k)) t = Ok t' /\ shows (t_input t') (l ++ s, r)) /\
  (exists t', cmpl_steps alnum (repeat COpPrev (S (length (c_items (t_completions t))))) t = Ok t' /\
     shows (t_input t') (l ++ c_replace (t_completions t), r) /\
     c_highlighted (t_completions t') = None /\ c_items (t_completions t') = c_items (t_completions t)).
Proof. exact cycle_prev. Qed.
Print Assumptions C50_prev.

(** Answers: as long as request numbers are distinct, the suggestions held answer the latest request. *)
Theorem C50_answers : forall alnum (answers : request -> str -> Prop) sent rq ops t,
  In rq sent -> (forall r, In r sent -> rq_changeset r = rq_changeset rq -> r = rq) ->
  c_changeset (t_completions t) = rq_changeset rq -> Forall (answers rq) (c_items (t_completions t)) ->
  (forall pkgs p, In (COpRecv pkgs) ops -> In p pkgs ->
     exists r, In r sent /\ pk_changeset p = rq_changeset r /\ Forall (answers r) (pk_items p)) ->
  forall t', cmpl_steps alnum ops t = Ok t' ->
  Forall (answers rq) (c_items (t_completions t')).
Proof. exact items_current. Qed.
Print Assumptions C50_answers.

Definition tab0 : tab_state := TabState 0 (InputBuffer (lit "ls | fi x") 7) (outputs_new 20 100) completions_new history_new.
(** The cursor right before the separator: nothing typed counts as the word. *)
Example C50_example_request :
  (exists c rq, completions_request (t_input tab0) completions_new = Ok (c, rq) /\ c_replace c = [] /\ c_start c = 7) /\
  (exists c rq, completions_request (InputBuffer (lit "ls | fi") 7) completions_new = Ok (c, rq) /\
     c_replace c = lit "fi" /\ c_start c = 5 /\ rq_word rq = 5).
Proof. split; eexists _, _; vm_compute; auto. Qed.

Example C50_example_cycle :
  let t := TabState 0 (InputBuffer (lit "ls | fi") 7) (outputs_new 20 100)
             (Completions 1 [lit "filter"; lit "fold"] None (lit "fi") 5 2) history_new in
  in_step (t_completions t) (t_input t) (lit "ls | ") (lit "fi") [] /\
  (exists t', cmpl_steps (fun _ => true) [COpNext] t = Ok t' /\ ib_buf (t_input t') = lit "ls | filter") /\
  (exists t', cmpl_steps (fun _ => true) [COpNext; COpNext] t = Ok t' /\ ib_buf (t_input t') = lit "ls | fold") /\
  (exists t', cmpl_steps (fun _ => true) [COpNext; COpNext; COpNext] t = Ok t' /\ ib_buf (t_input t') = lit "ls | fi").
Proof.
  cbv zeta. split; [|split; [|split]]; try (eexists; vm_compute; auto).
Qed.

(** Finding: pressing Enter does not number a new request, so the late answer to the request made for the
    evaluated line is accepted for the next, empty, line; the next Down key then inserts it. *)
Theorem C50_stale_refuted : exists cycles s s',
  let run := fun _ _ => @None str in
  let fix go (cs : list (list event * list package)) (s : term_state) :=
    match cs with
    | [] => Ok s
    | (evs, pkgs) :: cs => let? r := events_cycle (fun _ => true) (fun _ _ _ => 1) run evs pkgs s in go cs (snd r)
    end in
  s = TermState [tab_init 0 20] 0 true false 0 1 /\
  cycles = [([EvChar 102], []); ([EvEnter], []); ([], [Package 1 [lit "filter"]]); ([EvDown], [])]%N /\
  go cycles s = Ok s' /\
  map (fun t => ib_buf (t_input t)) (s_tabs s') = [lit "filter"].
Proof. eexists _, _, _. cbv zeta. split; [reflexivity|]. split; [reflexivity|]. split; vm_compute; reflexivity. Qed.
Print Assumptions C50_stale_refuted.
