(** C51: tabs and the end of the shell. *)
From Coq Require Import String List ZArith NArith Bool.
From Verif Require Import Model.Base Model.Utf Model.Shell Spec.ShellSpec Proofs.TabsProofs.
Import ListNotations.

(** A cycle in a running shell, for any events bound to keys, any completions arriving, any code run.
    If an event arrives after the last tab was closed the shell panics.  Otherwise the number of tabs is as
    expected, and the cycle asks to stop exactly when no tab is left, else the selected tab exists. *)
Theorem C51_cycle : forall alnum height_of run evs pkgs s, running s -> Forall bound_key evs ->
  if outlives_tabs (length (s_tabs s)) evs then events_cycle alnum height_of run evs pkgs s = Panic
  else exists stop fx s', events_cycle alnum height_of run evs pkgs s = Ok (stop, fx, s') /\
    length (s_tabs s') = fold_left tabs_after evs (length (s_tabs s)) /\
    (if stop then closed s' else running s').
Proof. exact events_cycle_ok. Qed.
Print Assumptions C51_cycle.

(** Events act on the selected tab only; closing removes exactly that tab. *)
Theorem C51_other_tabs : forall alnum ev s r s', running s -> bound_key ev -> process_event alnum ev s = Ok (r, s') ->
  match ev with
  | EvQuit => s_tabs s' = firstn (s_selected s) (s_tabs s) ++ skipn (S (s_selected s)) (s_tabs s)
  | EvNewTab => exists t, s_tabs s' = s_tabs s ++ [t] /\ s_selected s' = length (s_tabs s)
  | EvSwitch => s_tabs s' = s_tabs s
  | _ => s_selected s' = s_selected s /\ length (s_tabs s') = length (s_tabs s) /\
         forall j, j <> s_selected s -> nth_error (s_tabs s') j = nth_error (s_tabs s) j
  end.
Proof. exact other_tabs_kept. Qed.
Print Assumptions C51_other_tabs.

(** When a cycle runs a line, it is the text of the tab selected once all events are handled.  It is remembered as the newest
    line of this tab, the input and the suggestions are cleared, the output is added; the other tabs are as they were. *)
Theorem C51_runs : forall alnum height_of run evs pkgs s s1 r stop line s',
  process_events alnum evs RNone s = Ok (r, s1) ->
  events_cycle alnum height_of run evs pkgs s = Ok (stop, FxRun line, s') ->
  stop = false /\ s_selected s' = s_selected s1 /\ length (s_tabs s') = length (s_tabs s1) /\
  (forall j, j <> s_selected s1 -> nth_error (s_tabs s') j = nth_error (s_tabs s1) j) /\
  exists t t', nth_error (s_tabs s1) (s_selected s1) = Some t /\ nth_error (s_tabs s') (s_selected s1) = Some t' /\
    line = ib_buf (t_input t) /\ shows (t_input t') ([], []) /\ t_id t' = t_id t /\
    h_items (t_history t') = lastn 100 (h_items (t_history t) ++ [line]) /\ h_idx (t_history t') = None /\
    c_items (t_completions t') = [] /\ c_highlighted (t_completions t') = None /\
    t_outputs t' = match run line (t_id t) with
                   | Some v => outputs_add height_of v (s_theme s1) (t_outputs t)
                   | None => t_outputs t
                   end.
Proof. exact runs_line. Qed.
Print Assumptions C51_runs.

(** The state the shell starts in. *)
Definition start_state : term_state := TermState [tab_init 0 20] 0 true false 0 1.

Example C51_example : running start_state /\
  (let r := events_cycle (fun _ => true) (fun _ _ _ => 1) (fun _ _ => None)
              [EvNewTab; EvNewTab; EvChar 97%N; EvSwitch; EvQuit; EvScroll 5] [] start_state in
   exists fx s', r = Ok (false, fx, s') /\ map t_id (s_tabs s') = [1; 2] /\ s_selected s' = 1) /\
  (exists fx s', events_cycle (fun _ => true) (fun _ _ _ => 1) (fun _ _ => None) [EvQuit] [] start_state = Ok (true, fx, s')).
Proof.
  split; [split; [vm_compute; auto|repeat constructor]|]. vm_compute. split; eauto 10.
Qed.

(** Finding: closing the last tab with another event queued panics instead of ending the shell. *)
Theorem C51_queued_refuted : exists evs, Forall bound_key evs /\
  events_cycle (fun _ => true) (fun _ _ _ => 1) (fun _ _ => None) evs [] start_state = Panic.
Proof. exists [EvQuit; EvOther]. split; [repeat constructor|vm_compute; reflexivity]. Qed.
Print Assumptions C51_queued_refuted.

(** Finding: what is evaluated is not the line at the moment Enter is pressed: characters queued behind
    Enter in the same cycle are included, and a tab switch behind it makes the other tab's line run. *)
Theorem C51_enter_refuted : exists s1 s2,
  events_cycle (fun _ => true) (fun _ _ _ => 1) (fun _ _ => None)
    [EvChar 97; EvEnter; EvChar 98]%N [] start_state = Ok (false, FxRun (lit "ab"), s1) /\
  events_cycle (fun _ => true) (fun _ _ _ => 1) (fun _ _ => None)
    [EvChar 97; EvNewTab; EvChar 98; EvEnter; EvSwitch]%N [] start_state = Ok (false, FxRun (lit "a"), s2).
Proof. eexists _, _. vm_compute. split; reflexivity. Qed.
Print Assumptions C51_enter_refuted.

(** Finding: closing a tab selects not the next tab but the one after it. *)
Theorem C51_quit_skips_refuted : exists s, running s /\
  map t_id (s_tabs s) = [0; 1; 2] /\ s_selected s = 0 /\
  exists t, sel_tab (quit_tab s) = Ok t /\ t_id t = 2.
Proof.
  exists (TermState [tab_init 0 20; tab_init 1 20; tab_init 2 20] 0 true false 0 3).
  split; [split; [vm_compute; auto|repeat constructor]|]. vm_compute. eauto 10.
Qed.
Print Assumptions C51_quit_skips_refuted.
