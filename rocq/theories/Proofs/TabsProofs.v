From Coq Require Import List Arith Lia NArith ZArith Bool.
From Verif Require Import Model.Base Model.Utf Model.Shell Spec.ShellSpec Proofs.UtfLemmas Proofs.EditProofs Proofs.CmplProofs Proofs.HistoryProofs.
Import ListNotations.

Lemma set_at_length : forall A i (x : A) l, length (set_at i x l) = length l.
Proof. induction i as [|i IH]; intros x [|y l]; cbn; auto. Qed.

Lemma set_at_other : forall A i j (x : A) l, i <> j -> nth_error (set_at i x l) j = nth_error l j.
Proof. induction i as [|i IH]; intros [|j] x [|y l] H; cbn; auto; try congruence. Qed.

Lemma set_at_same : forall A i (x : A) l, i < length l -> nth_error (set_at i x l) i = Some x.
Proof. induction i as [|i IH]; intros x [|y l] H; cbn in *; auto; try lia. apply IH. lia. Qed.

Lemma set_at_Forall : forall A (P : A -> Prop) i x l, Forall P l -> P x -> Forall P (set_at i x l).
Proof.
  induction i as [|i IH]; intros x [|y l] H Hx; cbn; auto; inversion H; subst; constructor; auto.
Qed.

Lemma cursor_shows : forall b, ib_pos b <= length (ib_buf b) ->
  shows b (firstn (ib_pos b) (ib_buf b), skipn (ib_pos b) (ib_buf b)).
Proof. intros b H. split; cbn; [now rewrite firstn_skipn|]. rewrite firstn_length. lia. Qed.

Lemma shows_cursor : forall b z, shows b z -> ib_pos b <= length (ib_buf b).
Proof. intros b z [-> ->]. rewrite app_length. lia. Qed.

Lemma edit_ok : forall alnum op b, ib_pos b <= length (ib_buf b) ->
  exists b', edit_step alnum op b = Ok b' /\ ib_pos b' <= length (ib_buf b').
Proof.
  intros alnum op b H. destruct (edit_step_ideal alnum op b _ (cursor_shows b H)) as (b' & z & E & Hz & _).
  exists b'. split; auto. eapply shows_cursor; eauto.
Qed.

Lemma delete_n_total : forall n b, ib_pos b <= length (ib_buf b) ->
  exists b', delete_n n b = Ok b' /\ ib_pos b' <= length (ib_buf b').
Proof.
  induction n as [|n IH]; intros b H; cbn [delete_n]; [eauto|].
  destruct (edit_ok (fun _ => true) Delete b H) as (b1 & E & H1). cbn [edit_step] in E. rewrite E. cbn [rbind]. auto.
Qed.

Lemma mv_completions_ok : forall alnum next t, cursor_ok t ->
  exists t', mv_completions alnum next t = Ok t' /\ cursor_ok t'.
Proof.
  intros alnum next t H. unfold mv_completions.
  destruct (if next then highlight_next (t_completions t) else highlight_prev (t_completions t)) as [c [len w]].
  destruct (edit_ok alnum (MoveRight (Ch (c_start (t_completions t)))) (input_move_start (t_input t))) as (b1 & E1 & H1); [cbn; lia|].
  cbn [edit_step] in E1. rewrite E1. cbn [rbind].
  destruct (delete_n_total len b1 H1) as (b2 & E2 & H2). rewrite E2. cbn [rbind].
  destruct (edit_ok alnum (InsertStr w) b2 H2) as (b3 & E3 & H3). cbn [edit_step] in E3. rewrite E3. cbn [rbind]. eauto.
Qed.

Lemma mv_history_ok : forall back t, cursor_ok t -> exists t', mv_history back t = Ok t' /\ cursor_ok t'.
Proof.
  intros back t H. unfold mv_history.
  set (s := match history_current _ with Some s => s | None => [] end).
  destruct (edit_ok (fun _ => true) (InsertStr s) (input_clear (t_input t))) as (b & E & Hb); [cbn; lia|].
  cbn [edit_step] in E. rewrite E. cbn [rbind]. eauto.
Qed.

Lemma mv_cursor_ok : forall alnum w l t, cursor_ok t -> exists t', mv_cursor alnum w l t = Ok t' /\ cursor_ok t'.
Proof.
  intros alnum w l t H. unfold mv_cursor.
  destruct (edit_ok alnum (if l then MoveLeft (if w then Word else Ch 1) else MoveRight (if w then Word else Ch 1)) _ H) as (b & E & Hb).
  destruct l; cbn [edit_step] in E; rewrite E; cbn [rbind]; eauto.
Qed.

Lemma scroll_total : forall n o, In n [5; -5; 25; -25]%Z -> exists o', outputs_scroll n o = Ok o'.
Proof. intros n o [<-|[<-|[<-|[<-|[]]]]]; unfold outputs_scroll; cbn; eauto. Qed.

Lemma on_tab_ok : forall f s, running s ->
  (forall t, cursor_ok t -> exists t', f t = Ok t' /\ cursor_ok t') ->
  exists s', on_tab f s = Ok s' /\ running s' /\ length (s_tabs s') = length (s_tabs s) /\ s_selected s' = s_selected s /\
    forall j, j <> s_selected s -> nth_error (s_tabs s') j = nth_error (s_tabs s) j.
Proof.
  intros f s [H1 H2] Hf. unfold on_tab, sel_tab.
  destruct (nth_error (s_tabs s) (s_selected s)) as [t|] eqn:E; [|apply nth_error_None in E; lia].
  cbn [rbind]. destruct (Hf t) as (t' & Et & Ht).
  { rewrite Forall_forall in H2. apply H2. eapply nth_error_In; eauto. }
  rewrite Et. cbn [rbind]. eexists. split; [reflexivity|]. cbn. rewrite set_at_length.
  split; [split; cbn; [now rewrite set_at_length|now apply set_at_Forall]|].
  split; auto. split; auto. intros j Hj. apply set_at_other. auto.
Qed.

Lemma switch_running : forall tabs i s, tabs <> [] -> Forall cursor_ok tabs -> running (switch_tab (with_tabs tabs i s)).
Proof.
  intros tabs i s HN HF. split; [|exact HF]. cbn. destruct (Nat.leb_spec (length tabs) (i + 1)); auto.
  destruct tabs; [congruence|cbn; lia].
Qed.

Lemma remove_length : forall A i (l : list A), i < length l -> length (firstn i l ++ skipn (S i) l) = length l - 1.
Proof. intros A i l H. rewrite app_length, firstn_length, skipn_length. lia. Qed.

Lemma remove_Forall : forall A (P : A -> Prop) i l, Forall P l -> Forall P (firstn i l ++ skipn (S i) l).
Proof.
  intros A P i l H. apply Forall_app. rewrite Forall_forall in H. split; apply Forall_forall; intros x Hx; apply H.
  - rewrite <- (firstn_skipn i l). apply in_or_app. auto.
  - rewrite <- (firstn_skipn (S i) l). apply in_or_app. auto.
Qed.

(** One event in a running shell. *)
Theorem process_event_ok : forall alnum ev s, running s -> bound_key ev ->
  exists r s', process_event alnum ev s = Ok (r, s') /\
    length (s_tabs s') = tabs_after (length (s_tabs s)) ev /\
    (running s' /\ r <> RBreak \/ closed s' /\ r = RBreak /\ ev = EvQuit).
Proof.
  intros alnum ev s HR HK. pose proof HR as [HS HF]. unfold process_event.
  assert (exists cur, sel_tab s = Ok cur) as [cur Ec].
  { unfold sel_tab. destruct (nth_error (s_tabs s) (s_selected s)) eqn:E; eauto. apply nth_error_None in E. lia. }
  rewrite Ec. cbn [rbind].
  assert (D : forall f r, r <> RBreak -> (forall t, cursor_ok t -> exists t', f t = Ok t' /\ cursor_ok t') ->
    exists r' s', (let? s := on_tab f s in Ok (r, s)) = Ok (r', s') /\ length (s_tabs s') = length (s_tabs s) /\
     (running s' /\ r' <> RBreak \/ closed s' /\ r' = RBreak /\ ev = EvQuit)).
  { intros f r Hr Hf. destruct (on_tab_ok f s HR Hf) as (s' & E & R' & L & _). rewrite E. cbn [rbind].
    exists r, s'. split; auto. }
  assert (E : forall op, exists r' s', (let? s0 := on_tab (fun t => let? i := edit_step alnum op (t_input t) in Ok (set_input i t)) s in
      Ok (RInputChanged, s0)) = Ok (r', s') /\ length (s_tabs s') = length (s_tabs s) /\
     (running s' /\ r' <> RBreak \/ closed s' /\ r' = RBreak /\ ev = EvQuit)).
  { intros op. apply D; [discriminate|]. intros t Ht. destruct (edit_ok alnum op _ Ht) as (b & -> & Hb). cbn. eauto. }
  destruct ev; cbn [tabs_after].
  - eexists _, _. split; [reflexivity|]. split; [reflexivity|]. left. split; [exact HR|discriminate].
  - set (s' := quit_tab s). assert (HL : s_tabs s' = firstn (s_selected s) (s_tabs s) ++ skipn (S (s_selected s)) (s_tabs s)).
    { unfold s', quit_tab. rewrite (proj2 (Nat.ltb_lt _ _) HS). reflexivity. }
    eexists _, _. split; [reflexivity|]. split; [now rewrite HL, remove_length|].
    rewrite HL, remove_length by auto. destruct (Nat.eqb_spec (length (s_tabs s) - 1) 0) as [H0|H0].
    + right. split; [|split; reflexivity]. assert (T0 : s_tabs s' = []).
      { apply length_zero_iff_nil. rewrite HL, remove_length; auto. }
      split; auto. rewrite HL in T0. unfold s', quit_tab. rewrite (proj2 (Nat.ltb_lt _ _) HS).
      cbn [switch_tab with_tabs s_tabs s_selected]. now rewrite T0.
    + left. split; [|discriminate]. unfold s', quit_tab. rewrite (proj2 (Nat.ltb_lt _ _) HS).
      apply switch_running; [|now apply remove_Forall].
      intros C. apply (f_equal (@length _)) in C. rewrite remove_length in C by auto. cbn in C. lia.
  - eexists _, _. split; [reflexivity|]. split; [cbn; rewrite app_length; reflexivity|]. left. split; [|discriminate].
    split; cbn.
    + rewrite app_length. cbn. lia.
    + apply Forall_app. split; auto. constructor; auto. unfold cursor_ok. cbn. lia.
  - eexists _, _. split; [reflexivity|]. split; [reflexivity|]. left. split; [|discriminate].
    replace (switch_tab s) with (switch_tab (with_tabs (s_tabs s) (s_selected s) s)) by reflexivity.
    apply switch_running; auto. destruct (s_tabs s); [cbn in HS; lia|discriminate].
  - eexists _, _. split; [reflexivity|]. split; [reflexivity|]. left. split; [exact HR|discriminate].
  - eexists _, _. split; [reflexivity|]. split; [reflexivity|]. left. split; [exact HR|discriminate].
  - apply D; [discriminate|]. intros t Ht. destruct (scroll_total lines (t_outputs t)) as [o' ->]; [exact HK|]. cbn. eauto.
  - destruct (completions_has _); apply D; try discriminate; intros t Ht; [now apply mv_completions_ok|now apply mv_history_ok].
  - destruct (completions_has _); apply D; try discriminate; intros t Ht; [now apply mv_completions_ok|now apply mv_history_ok].
  - destruct (completions_has _).
    + apply D; [discriminate|]. intros t Ht. eauto.
    + eexists _, _. split; [reflexivity|]. split; [reflexivity|]. left. split; [exact HR|discriminate].
  - apply D; [discriminate|]. intros t Ht. now apply mv_cursor_ok.
  - apply (E Backspace).
  - apply (E Delete).
  - apply (E (Insert 10)).
  - apply (E (Insert c)).
  - eexists _, _. split; [reflexivity|]. split; [reflexivity|]. left. split; [exact HR|discriminate].
  - eexists _, _. split; [reflexivity|]. split; [reflexivity|]. left. split; [exact HR|discriminate].
Qed.

Lemma process_closed : forall alnum ev s, closed s -> process_event alnum ev s = Panic.
Proof. intros alnum ev s [H1 H2]. unfold process_event, sel_tab. now rewrite H1, H2. Qed.

Lemma process_events_ok : forall alnum evs s acc, running s \/ closed s -> Forall bound_key evs ->
  (closed s <-> acc = RBreak) ->
  if outlives_tabs (length (s_tabs s)) evs then process_events alnum evs acc s = Panic
  else exists r s', process_events alnum evs acc s = Ok (r, s') /\
    length (s_tabs s') = fold_left tabs_after evs (length (s_tabs s)) /\
    (running s' \/ closed s') /\ (closed s' <-> r = RBreak).
Proof.
  intros alnum. induction evs as [|ev evs IH]; intros s acc HR HK HA; cbn [outlives_tabs process_events fold_left].
  - exists acc, s. auto.
  - inversion HK; subst. destruct HR as [HR|HC].
    + destruct (process_event_ok alnum ev s HR) as (r & s' & E & L & C); auto. rewrite E. cbn [rbind fst snd].
      assert (N0 : Nat.eqb (length (s_tabs s)) 0 = false) by (apply Nat.eqb_neq; destruct HR; lia).
      rewrite N0. cbn [orb]. rewrite <- L. apply IH; auto.
      * destruct C as [[C _]|[C _]]; auto.
      * assert (NA : acc <> RBreak).
        { intros ->. destruct HR as [HR _]. destruct (proj2 HA eq_refl) as [H0 _]. rewrite H0 in HR. cbn in HR. lia. }
        destruct C as [[C C']|[C [-> ->]]].
        -- split; [intros [C0 _]; destruct C as [C _]; rewrite C0 in C; cbn in C; lia|].
           unfold result_max. destruct (Nat.leb _ _); congruence.
        -- split; auto. intros _. unfold result_max. destruct acc; reflexivity.
    + rewrite process_closed by auto. cbn [rbind]. destruct HC as [-> _]. reflexivity.
Qed.

(** A whole cycle. *)
Theorem events_cycle_ok : forall alnum height_of run evs pkgs s, running s -> Forall bound_key evs ->
  if outlives_tabs (length (s_tabs s)) evs then events_cycle alnum height_of run evs pkgs s = Panic
  else exists stop fx s', events_cycle alnum height_of run evs pkgs s = Ok (stop, fx, s') /\
    length (s_tabs s') = fold_left tabs_after evs (length (s_tabs s)) /\
    (if stop then closed s' else running s').
Proof.
  intros alnum height_of run evs pkgs s HR HK.
  pose proof (process_events_ok alnum evs s RNone (or_introl HR) HK) as H.
  assert (HN : closed s <-> RNone = RBreak).
  { split; [|discriminate]. intros [C _]. destruct HR as [HR _]. rewrite C in HR. cbn in HR. lia. }
  specialize (H HN). unfold events_cycle.
  destruct (outlives_tabs (length (s_tabs s)) evs); [now rewrite H|].
  destruct H as (r & s' & E & L & C & B). rewrite E. cbn [rbind].
  assert (HRun : r <> RBreak -> running s').
  { intros Hr. destruct C as [C|C]; auto. exfalso. apply Hr, B, C. }
  assert (Hsel : running s' -> exists t, sel_tab s' = Ok t /\ cursor_ok t /\ In t (s_tabs s')).
  { intros [H1 H2]. unfold sel_tab. destruct (nth_error (s_tabs s') (s_selected s')) as [t|] eqn:Et; [|apply nth_error_None in Et; lia].
    exists t. split; auto. split; [|eapply nth_error_In; eauto]. rewrite Forall_forall in H2. apply H2. eapply nth_error_In; eauto. }
  assert (Hput : forall t x, running x -> cursor_ok t -> running (put_tab t x) /\ length (s_tabs (put_tab t x)) = length (s_tabs x)).
  { intros t x [H1 H2] Ht. cbn. rewrite set_at_length. split; auto. split; cbn; [now rewrite set_at_length|now apply set_at_Forall]. }
  destruct r.
  - destruct (Hsel (HRun ltac:(discriminate))) as (t & Et & Ht & _). rewrite Et. cbn [rbind].
    destruct (completions_has (t_completions t) && negb (s_cmpls_drawn s')).
    + eexists _, _, _. split; [reflexivity|]. cbn. split; auto. apply HRun. discriminate.
    + cbn. eexists _, _, _. split; [reflexivity|].
      destruct (Hput (set_completions (snd (completions_recv pkgs (t_completions t))) t) s' (HRun ltac:(discriminate)) Ht) as [P1 P2].
      rewrite <- L, <- P2. split; [reflexivity|exact P1].
  - eexists _, _, _. split; [reflexivity|]. split; auto. apply HRun. discriminate.
  - set (s1 := TermState (s_tabs s') (s_selected s') (s_help s') false (s_theme s') (s_next_id s')).
    assert (R1 : running s1) by (apply (HRun ltac:(discriminate))).
    destruct (Hsel (HRun ltac:(discriminate))) as (t & Et & Ht & _).
    replace (sel_tab s1) with (Ok t) by (rewrite <- Et; reflexivity). cbn [rbind].
    destruct (request_correct _ (t_completions t) _ _ (cursor_shows _ Ht)) as (c' & rq & _ & _ & Eq & _).
    rewrite Eq. cbn [rbind]. eexists _, _, _. split; [reflexivity|].
    destruct (Hput (set_completions c' t) s1 R1 Ht) as [P1 P2]. split; [rewrite P2; exact L|exact P1].
  - unfold eval_enter. destruct (Hsel (HRun ltac:(discriminate))) as (t & Et & Ht & _). rewrite Et. cbn [rbind].
    eexists _, _, _. split; [reflexivity|].
    match goal with |- length (s_tabs (put_tab ?x s')) = _ /\ _ => destruct (Hput x s' (HRun ltac:(discriminate))) as [P1 P2] end.
    { unfold cursor_ok. destruct (run _ _); cbn; lia. }
    split; [rewrite P2; exact L|exact P1].
  - eexists _, _, _. split; [reflexivity|]. split; auto. now apply B.
Qed.

(** Events act on the selected tab only. *)
Theorem other_tabs_kept : forall alnum ev s r s', running s -> bound_key ev -> process_event alnum ev s = Ok (r, s') ->
  match ev with
  | EvQuit => s_tabs s' = firstn (s_selected s) (s_tabs s) ++ skipn (S (s_selected s)) (s_tabs s)
  | EvNewTab => exists t, s_tabs s' = s_tabs s ++ [t] /\ s_selected s' = length (s_tabs s)
  | EvSwitch => s_tabs s' = s_tabs s
  | _ => s_selected s' = s_selected s /\ length (s_tabs s') = length (s_tabs s) /\
         forall j, j <> s_selected s -> nth_error (s_tabs s') j = nth_error (s_tabs s) j
  end.
Proof.
  intros alnum ev s r s' HR HK. pose proof HR as [HS HF]. unfold process_event.
  assert (exists cur, sel_tab s = Ok cur) as [cur Ec].
  { unfold sel_tab. destruct (nth_error (s_tabs s) (s_selected s)) eqn:E; eauto. apply nth_error_None in E. lia. }
  rewrite Ec. cbn [rbind].
  assert (D : forall f q, (forall t, cursor_ok t -> exists t', f t = Ok t' /\ cursor_ok t') ->
    (let? s := on_tab f s in Ok (q, s)) = Ok (r, s') ->
    s_selected s' = s_selected s /\ length (s_tabs s') = length (s_tabs s) /\
         forall j, j <> s_selected s -> nth_error (s_tabs s') j = nth_error (s_tabs s) j).
  { intros f q Hf E. destruct (on_tab_ok f s HR Hf) as (s1 & E1 & _ & L & S1 & O1). rewrite E1 in E. cbn in E.
    injection E as _ <-. auto. }
  assert (DE : forall op, (let? s0 := on_tab (fun t => let? i := edit_step alnum op (t_input t) in Ok (set_input i t)) s in
      Ok (RInputChanged, s0)) = Ok (r, s') ->
    s_selected s' = s_selected s /\ length (s_tabs s') = length (s_tabs s) /\
         forall j, j <> s_selected s -> nth_error (s_tabs s') j = nth_error (s_tabs s) j).
  { intros op. apply D. intros t Ht. destruct (edit_ok alnum op _ Ht) as (b & -> & Hb). cbn. eauto. }
  destruct ev; cbv zeta; intros H.
  - injection H as _ <-. auto.
  - injection H as _ <-. unfold quit_tab. rewrite (proj2 (Nat.ltb_lt _ _) HS). reflexivity.
  - injection H as _ <-. cbn. eexists. split; [reflexivity|]. rewrite app_length. cbn. lia.
  - injection H as _ <-. reflexivity.
  - injection H as _ <-. auto.
  - injection H as _ <-. auto.
  - eapply D; [|exact H]. intros t Ht. destruct (scroll_total lines (t_outputs t)) as [o' ->]; [exact HK|]. cbn. eauto.
  - destruct (completions_has _); eapply D; try exact H; intros t Ht; [now apply mv_completions_ok|now apply mv_history_ok].
  - destruct (completions_has _); eapply D; try exact H; intros t Ht; [now apply mv_completions_ok|now apply mv_history_ok].
  - destruct (completions_has _).
    + eapply D; [|exact H]. eauto.
    + injection H as _ <-. auto.
  - eapply D; [|exact H]. intros t Ht. now apply mv_cursor_ok.
  - apply (DE Backspace H).
  - apply (DE Delete H).
  - apply (DE (Insert 10) H).
  - apply (DE (Insert c) H).
  - injection H as _ <-. auto.
  - injection H as _ <-. auto.
Qed.

(** A line that is run: it is remembered, the input is cleared, its output is added. *)
Theorem runs_line : forall alnum height_of run evs pkgs s s1 r stop line s',
  process_events alnum evs RNone s = Ok (r, s1) ->
  events_cycle alnum height_of run evs pkgs s = Ok (stop, FxRun line, s') ->
  stop = false /\ s_selected s' = s_selected s1 /\ length (s_tabs s') = length (s_tabs s1) /\
  (forall j, j <> s_selected s1 -> nth_error (s_tabs s') j = nth_error (s_tabs s1) j) /\
  exists t t', nth_error (s_tabs s1) (s_selected s1) = Some t /\ nth_error (s_tabs s') (s_selected s1) = Some t' /\
    line = ib_buf (t_input t) /\ shows (t_input t') ([], []) /\ t_id t' = t_id t /\
    h_items (t_history t') = lastn 100 (h_items (t_history t) ++ [line]) /\ h_idx (t_history t') = None /\
    c_items (t_completions t') = [] /\ c_highlighted (t_completions t') = None /\
    t_outputs t' = match run line (t_id t) with
                   | Some v => outputs_add height_of v (s_theme s1) (t_outputs t)
                   | None => t_outputs t
                   end.
Proof.
  intros alnum height_of run evs pkgs s s1 r stop line s' HP. unfold events_cycle. rewrite HP. cbn [rbind].
  destruct r; cbn [rbind].
  - destruct (sel_tab s1); cbn [rbind]; try discriminate. destruct (_ && _); discriminate.
  - discriminate.
  - destruct (sel_tab _); cbn [rbind]; try discriminate. destruct (completions_request _ _) as [[? ?]| |]; discriminate.
  - unfold eval_enter, sel_tab. destruct (nth_error (s_tabs s1) (s_selected s1)) as [t|] eqn:Et; cbn [rbind]; [|discriminate].
    assert (L : s_selected s1 < length (s_tabs s1)) by (apply nth_error_Some; congruence).
    intro H. injection H as <- <- <-. split; [reflexivity|]. cbn [put_tab with_tabs s_tabs s_selected].
    split; [reflexivity|]. split; [apply set_at_length|]. split; [intros j Hj; apply set_at_other; auto|].
    exists t. eexists. split; [reflexivity|]. split; [apply set_at_same; exact L|]. split; [reflexivity|].
    assert (E : h_items (history_add (ib_buf (t_input t)) (t_history t)) = lastn 100 (h_items (t_history t) ++ [ib_buf (t_input t)])).
    { unfold history_add. cbn [h_items]. rewrite trim_lastn. change 100 with (S (history_lim - 1)). rewrite lastn_snoc. reflexivity. }
    cbn [t_id]. destruct (run (ib_buf (t_input t)) (t_id t)); cbn [set_outputs t_id t_input t_history t_completions t_outputs];
      repeat split; auto.
  - discriminate.
Qed.
