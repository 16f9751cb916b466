From Coq Require Import List Arith Lia Bool Sorted.
From Verif Require Import Model.Base Model.Batch Spec.BatchSpec.
Import ListNotations.

(** * Small lemmas *)
Lemma has_in : forall i l, has i l = true <-> In i l.
Proof.
  intros. unfold has. rewrite existsb_exists. split.
  - intros (x & H & E). apply Nat.eqb_eq in E. now subst.
  - intros H. exists i. split; auto. apply Nat.eqb_refl.
Qed.
Lemma drop_in : forall i j l, In j (drop i l) <-> In j l /\ j <> i.
Proof.
  intros. unfold drop. rewrite filter_In. split; intros [H E]; split; auto.
  - intros ->. now rewrite Nat.eqb_refl in E.
  - destruct (Nat.eqb_spec i j); auto.
Qed.
Lemma drop_nodup : forall i l, NoDup l -> NoDup (drop i l).
Proof. intros. now apply NoDup_filter. Qed.

Lemma set_length : forall l i o, length (set_nth i o l) = length l.
Proof. induction l; intros [|i] o; cbn; auto. Qed.
Lemma set_same : forall l i o, i < length l -> nth_error (set_nth i o l) i = Some o.
Proof. induction l; intros [|i] o H; cbn in *; auto; try lia. apply IHl. lia. Qed.
Lemma set_other : forall l i j o, i <> j -> nth_error (set_nth i o l) j = nth_error l j.
Proof. induction l; intros [|i] [|j] o H; cbn; auto; try congruence. Qed.

Lemma nth_error_firstn : forall A (l : list A) n i, i < n -> nth_error (firstn n l) i = nth_error l i.
Proof. intros A l. induction l; intros [|n] [|i] H; cbn; auto; try lia. apply IHl. lia. Qed.

(** * Splitting the batch *)
Definition isx (items : list item) (i : nat) : bool := is_expr (code_of items i).
Definition defs_of (items : list item) := filter (fun i => negb (isx items i)) (seq 0 (length items)).
Definition exprs_of (items : list item) := filter (isx items) (seq 0 (length items)).

Lemma split_gen : forall suf pre d x,
  fold_left (fun (dx : list nat * list nat) b => let (d, x) := dx in
      if is_expr (snd b) then (d, x ++ [fst b]) else (d ++ [fst b], x))
    (combine (seq (length pre) (length suf)) suf) (d, x)
  = (d ++ filter (fun i => negb (isx (pre ++ suf) i)) (seq (length pre) (length suf)),
     x ++ filter (isx (pre ++ suf)) (seq (length pre) (length suf))).
Proof.
  induction suf as [|it suf IH]; intros pre d x; cbn [length seq combine fold_left filter].
  - now rewrite !app_nil_r.
  - cbn [fst snd]. assert (E : isx (pre ++ it :: suf) (length pre) = is_expr it).
    { unfold isx, code_of. now rewrite app_nth2, Nat.sub_diag by lia. }
    rewrite E. specialize (IH (pre ++ [it])). rewrite app_length in IH. cbn [length] in IH.
    replace (length pre + 1) with (S (length pre)) in IH by lia. rewrite <- app_assoc in IH. cbn [app] in IH.
    destruct (is_expr it); cbn [negb]; rewrite IH; rewrite <- app_assoc; reflexivity.
Qed.
Lemma split_spec : forall items, split_batch items = (defs_of items, exprs_of items).
Proof. intros. apply (split_gen items [] [] []). Qed.

Lemma is_def_in : forall items i, In i (defs_of items) <-> is_def items i.
Proof.
  intros. unfold defs_of, is_def, isx, code_of. rewrite filter_In, in_seq. split.
  - intros [H E]. exists (nth i items (Item [] IExpr)). split; [apply nth_error_nth'; lia|].
    unfold is_expr in E. destruct (it_type (nth i items (Item [] IExpr))); discriminate.
  - intros (it & H & E). rewrite (nth_error_nth _ _ _ H). assert (i < length items) by (apply nth_error_Some; congruence).
    split; [lia|]. unfold is_expr. destruct (it_type it); auto.
Qed.
Lemma is_xpr_in : forall items i, In i (exprs_of items) <-> is_xpr items i.
Proof.
  intros. unfold exprs_of, is_xpr, isx, code_of. rewrite filter_In, in_seq. split.
  - intros [H E]. exists (nth i items (Item [] IExpr)). split; [apply nth_error_nth'; lia|].
    unfold is_expr in E. destruct (it_type (nth i items (Item [] IExpr))); auto; discriminate.
  - intros (it & H & E). rewrite (nth_error_nth _ _ _ H). assert (i < length items) by (apply nth_error_Some; congruence).
    split; [lia|]. unfold is_expr. now rewrite E.
Qed.
Lemma one_kind : forall items i, i < length items -> In i (defs_of items) \/ In i (exprs_of items).
Proof.
  intros items i H. unfold defs_of, exprs_of. rewrite !filter_In, in_seq.
  destruct (isx items i); cbn; [right|left]; split; auto; lia.
Qed.
Lemma not_both : forall items i, In i (defs_of items) -> In i (exprs_of items) -> False.
Proof.
  intros items i. unfold defs_of, exprs_of. rewrite !filter_In. intros [_ E] [_ F]. rewrite F in E. discriminate.
Qed.
Lemma defs_bound : forall items i, In i (defs_of items) -> i < length items.
Proof. intros items i. unfold defs_of. rewrite filter_In, in_seq. lia. Qed.
Lemma exprs_bound : forall items i, In i (exprs_of items) -> i < length items.
Proof. intros items i. unfold exprs_of. rewrite filter_In, in_seq. lia. Qed.

Section Batch.
  Variable D : Type.
  Variable def_run : item -> D -> bool * D.
  Variable expr_run : item -> D -> bool.
  Variable items : list item.
  Variable d0 : D.

  Notation succ := (succeeds D def_run expr_run items d0).
  Notation act := (act def_run expr_run).
  Notation acts := (acts def_run expr_run).

  Definition dfold (js : list nat) (d : D) : D := fold_left (fun d j => snd (def_run (code_of items j) d)) js d.

  Lemma dfold_gen : forall suf pre d, items = pre ++ suf ->
    dfold (filter (fun i => negb (isx items i)) (seq (length pre) (length suf))) d = defs_after D def_run suf d.
  Proof.
    induction suf as [|it suf IH]; intros pre d E; [reflexivity|]. cbn [length seq filter defs_after].
    assert (C : code_of items (length pre) = it).
    { unfold code_of. rewrite E. now rewrite app_nth2, Nat.sub_diag by lia. }
    assert (S1 : S (length pre) = length (pre ++ [it])) by (rewrite app_length; cbn; lia).
    assert (E2 : items = (pre ++ [it]) ++ suf) by (rewrite <- app_assoc; exact E).
    unfold isx at 1. rewrite C, S1. unfold is_expr. destruct (it_type it); cbn [negb]; unfold dfold; cbn [fold_left];
      try rewrite C; apply (IH (pre ++ [it])); exact E2.
  Qed.

  Lemma dfold_all : dfold (defs_of items) d0 = defs_after D def_run items d0.
  Proof. apply (dfold_gen items [] d0 eq_refl). Qed.

  Lemma defs_after_app : forall a b d, defs_after D def_run (a ++ b) d = defs_after D def_run b (defs_after D def_run a d).
  Proof. induction a; intros; cbn; auto. Qed.

  Lemma defs_split : forall i done rest, defs_of items = done ++ i :: rest -> done = filter (fun j => negb (isx items j)) (seq 0 i).
  Proof.
    intros i done rest E.
    assert (Hi : In i (defs_of items)) by (rewrite E; apply in_or_app; right; now left).
    pose proof (defs_bound _ _ Hi) as B.
    assert (E2 : defs_of items = filter (fun j => negb (isx items j)) (seq 0 i) ++ i :: filter (fun j => negb (isx items j)) (seq (S i) (length items - S i))).
    { unfold defs_of in *. replace (length items) with (i + S (length items - S i)) at 1 by lia.
      rewrite seq_app, filter_app. f_equal. cbn [seq filter plus]. apply filter_In in Hi as [_ ->]. reflexivity. }
    assert (ND : NoDup (defs_of items)) by apply NoDup_filter, seq_NoDup.
    assert (N1 : ~ In i (filter (fun j => negb (isx items j)) (seq 0 i))) by (rewrite filter_In, in_seq; lia).
    assert (N2 : ~ In i done).
    { rewrite E in ND. apply NoDup_remove_2 in ND. intros H. apply ND. apply in_or_app. auto. }
    rewrite E in E2. clear E ND Hi B. revert E2 N1 N2. generalize (filter (fun j => negb (isx items j)) (seq 0 i)).
    induction done as [|x done IH]; intros [|y l] E2 N1 N2; auto.
    - injection E2 as -> _. exfalso. apply N1. now left.
    - injection E2 as -> _. exfalso. apply N2. now left.
    - injection E2 as -> E2. f_equal. apply IH; auto; intros H; [apply N1|apply N2]; now right.
  Qed.

  Lemma filter_ext_in' : forall A (f g : A -> bool) l, (forall x, In x l -> f x = g x) -> filter f l = filter g l.
  Proof. intros A f g l. induction l as [|x l IH]; intros H; [auto|]. cbn. rewrite (H x (or_introl eq_refl)), IH; auto. intros y Hy. apply H. now right. Qed.

  Lemma dfold_before : forall i done rest, defs_of items = done ++ i :: rest ->
    dfold done d0 = defs_after D def_run (firstn i items) d0.
  Proof.
    intros i done rest E. rewrite (defs_split _ _ _ E).
    assert (B : i < length items) by (apply defs_bound; rewrite E; apply in_or_app; right; now left).
    assert (G : forall k d, k <= i -> dfold (filter (fun j => negb (isx items j)) (seq (i - k) k)) d
                = defs_after D def_run (skipn (i - k) (firstn i items)) d).
    { induction k as [|k IH]; intros d Hk.
      - rewrite Nat.sub_0_r. cbn. rewrite skipn_all2; [reflexivity|]. rewrite firstn_length. lia.
      - cbn [seq filter]. assert (HH : skipn (i - S k) (firstn i items) = code_of items (i - S k) :: skipn (i - k) (firstn i items)).
        { assert (X : nth_error (firstn i items) (i - S k) = Some (code_of items (i - S k))).
          { rewrite nth_error_firstn by lia. unfold code_of. apply nth_error_nth'. lia. }
          apply nth_error_split in X as (a & b & EX & La). rewrite EX.
          rewrite skipn_app, skipn_all2 by lia. replace (i - S k - length a) with 0 by lia. cbn [app skipn].
          f_equal. replace (i - k) with (S (length a)) by lia. rewrite skipn_app, skipn_all2 by lia.
          replace (S (length a) - length a) with 1 by lia. reflexivity. }
        rewrite HH. cbn [defs_after]. replace (S (i - S k)) with (i - k) by lia.
        unfold isx at 1. unfold is_expr. destruct (it_type (code_of items (i - S k))); cbn [negb]; unfold dfold; cbn [fold_left];
          apply IH; lia. }
    specialize (G i d0 (le_n i)). rewrite Nat.sub_diag in G. exact G.
  Qed.

  Definition own (i : nat) (o : outcome) : Prop := own_outcome D def_run expr_run items d0 i o.

  Definition J (ff : bool) (s : bstate D) (i : nat) : Prop :=
    (In i (b_todo_exprs s) /\ ~ In i (b_running s) /\ ~ In i (b_reported s) /\ ~ In i (b_ran s) /\
       nth_error (b_results s) i = Some Outstanding /\ nth_error (b_reporter s) i = Some Outstanding) \/
    (~ In i (b_todo_exprs s) /\ In i (b_running s) /\ ~ In i (b_reported s) /\ In i (b_ran s) /\
       nth_error (b_results s) i = Some Outstanding /\ nth_error (b_reporter s) i = Some Outstanding) \/
    (~ In i (b_todo_exprs s) /\ ~ In i (b_running s) /\ In i (b_reported s) /\ In i (b_ran s) /\
       nth_error (b_results s) i = Some Outstanding /\ exists o, own i o /\ nth_error (b_reporter s) i = Some o) \/
    (~ In i (b_todo_exprs s) /\ ~ In i (b_running s) /\ ~ In i (b_reported s) /\ In i (b_ran s) /\
       exists o, own i o /\ nth_error (b_results s) i = Some o /\ nth_error (b_reporter s) i = Some o) \/
    (~ In i (b_todo_exprs s) /\ ~ In i (b_running s) /\ ~ In i (b_reported s) /\ ~ In i (b_ran s) /\
       stop ff s = true /\ nth_error (b_reporter s) i = Some Outstanding /\
       (nth_error (b_results s) i = Some Outstanding \/ (nth_error (b_results s) i = Some Cancelled /\ b_cancelled s = true))).

  Definition init_out := repeat Outstanding (length items).

  Record inv (ff par : bool) (l : list action) (done skip : list nat) (s : bstate D) : Prop := {
    i_defs : defs_of items = done ++ b_todo_defs s ++ skip;
    i_skip : skip <> [] -> b_todo_defs s = [] /\ stop ff s = true;
    i_d : b_defs s = dfold done d0;
    i_len : length (b_results s) = length items /\ length (b_reporter s) = length items;
    i_sorted : StronglySorted lt (b_todo_exprs s);
    i_sub : forall i, In i (b_todo_exprs s) \/ In i (b_running s) \/ In i (b_reported s) -> In i (exprs_of items);
    i_early : b_todo_defs s <> [] -> b_todo_exprs s = exprs_of items;
    i_done : forall i, In i done -> In i (b_ran s) /\ exists o, own i o /\ nth_error (b_results s) i = Some o /\ nth_error (b_reporter s) i = Some o;
    i_left : forall i, In i (b_todo_defs s ++ skip) -> ~ In i (b_ran s) /\ nth_error (b_results s) i = Some Outstanding /\ nth_error (b_reporter s) i = Some Outstanding;
    i_x : forall i, In i (exprs_of items) -> J ff s i;
    i_ran : forall i, In i (b_ran s) -> In i done \/ In i (exprs_of items);
    i_nodup : NoDup (b_ran s) /\ NoDup (b_running s);
    i_cancel : b_cancelled s = true <-> In ACancel l;
    i_fail : b_failure s = true <-> exists i, (In i done \/ In (AFinish i) l) /\ succ i = Some false;
    i_fin : forall i, In (AFinish i) l <-> In i (exprs_of items) /\ In i (b_ran s) /\ ~ In i (b_running s) /\ ~ In i (b_reported s);
    i_all : forall i, In i (exprs_of items) -> In i (b_ran s) -> b_todo_defs s = [] /\ skip = [];
    i_msgs : progress_ok D def_run expr_run items d0 init_out (rev (b_sent s)) /\ last (rev (b_sent s)) init_out = b_reporter s /\
             length (b_sent s) + length (b_running s) = length (b_ran s);
    i_count : length (filter is_adef l) = length done + (match skip with [] => 0 | _ => 1 end)
  }.

  Lemma own_def : forall i done rest, defs_of items = done ++ i :: rest ->
    succ i = Some (fst (def_run (code_of items i) (dfold done d0))).
  Proof.
    intros i done rest E. assert (Hi : In i (defs_of items)) by (rewrite E; apply in_or_app; right; now left).
    apply is_def_in in Hi as (it & Hn & Ht). unfold succeeds. rewrite Hn.
    rewrite (dfold_before _ _ _ E). unfold code_of. rewrite (nth_error_nth _ _ _ Hn). destruct (it_type it); congruence.
  Qed.
  Lemma own_expr : forall i, In i (exprs_of items) -> succ i = Some (expr_run (code_of items i) (dfold (defs_of items) d0)).
  Proof.
    intros i Hi. apply is_xpr_in in Hi as (it & Hn & Ht). unfold succeeds. rewrite Hn, Ht, dfold_all.
    unfold code_of. now rewrite (nth_error_nth _ _ _ Hn).
  Qed.
  Lemma own_of : forall i b, succ i = Some b -> own i (outcome_of b).
  Proof. intros i [|] H; [left|right]; auto. Qed.

  Lemma progress_snoc : forall msgs prev m, progress_ok D def_run expr_run items d0 prev (msgs ++ [m]) <->
    progress_ok D def_run expr_run items d0 prev msgs /\ progress_ok D def_run expr_run items d0 (last msgs prev) [m].
  Proof.
    induction msgs as [|x msgs IH]; intros prev m.
    - cbn. tauto.
    - assert (EL : last (x :: msgs) prev = last msgs x).
      { clear. revert x prev. induction msgs as [|y msgs IH]; intros x prev; [reflexivity|].
        transitivity (last (y :: msgs) prev); [reflexivity|]. now rewrite !IH. }
      rewrite EL. specialize (IH x m).
      change (progress_ok D def_run expr_run items d0 prev ((x :: msgs) ++ [m])) with
        ((length x = length prev /\ exists i o, nth_error prev i = Some Outstanding /\
           own_outcome D def_run expr_run items d0 i o /\ nth_error x i = Some o /\
           forall j, j <> i -> nth_error x j = nth_error prev j) /\ progress_ok D def_run expr_run items d0 x (msgs ++ [m])).
      rewrite IH. cbn [progress_ok]. tauto.
  Qed.

  Lemma init_nth : forall i, i < length items -> nth_error init_out i = Some Outstanding.
  Proof.
    intros i H. unfold init_out. rewrite nth_error_nth' with (d := Outstanding) by now rewrite repeat_length.
    f_equal. apply nth_repeat.
  Qed.

  Lemma sorted_filter : forall f l, StronglySorted lt l -> StronglySorted lt (filter f l).
  Proof.
    intros f l H. induction H; cbn; [constructor|]. destruct (f a); auto. constructor; auto.
    apply incl_Forall with (l1 := l); auto. intros x Hx. now apply filter_In in Hx.
  Qed.
  Lemma sorted_seq : forall n a, StronglySorted lt (seq a n).
  Proof. induction n; intros a; cbn; constructor; auto. apply Forall_forall. intros x H. apply in_seq in H. lia. Qed.

  Lemma inv_init : forall ff par, inv ff par [] [] [] (batch_init items d0).
  Proof.
    intros ff par. unfold batch_init. rewrite split_spec. constructor; cbn; auto; try tauto; try congruence.
    - now rewrite app_nil_r.
    - now rewrite repeat_length.
    - apply sorted_filter, sorted_seq.
    - intros i. rewrite app_nil_r. intros H. pose proof (defs_bound _ _ H). split; auto. split; now apply init_nth.
    - intros i H. left. cbn. pose proof (exprs_bound _ _ H). repeat (split; auto); now apply init_nth.
    - split; constructor.
    - split; [discriminate|tauto].
    - split; [discriminate|]. intros (i & [[]|[]] & _).
  Qed.

  Lemma in_snoc : forall A (x a : A) l, In x (l ++ [a]) <-> In x l \/ x = a.
  Proof. intros. rewrite in_app_iff. cbn. intuition. Qed.

  (** [stop] only gets truer. *)
  Lemma J_mono : forall ff s s' i, J ff s i ->
    b_todo_exprs s' = b_todo_exprs s -> b_running s' = b_running s -> b_reported s' = b_reported s ->
    (In i (b_ran s') <-> In i (b_ran s)) -> nth_error (b_results s') i = nth_error (b_results s) i ->
    nth_error (b_reporter s') i = nth_error (b_reporter s) i ->
    (b_cancelled s = true -> b_cancelled s' = true) -> (stop ff s = true -> stop ff s' = true) -> J ff s' i.
  Proof.
    unfold J. intros ff s s' i H -> -> -> -> -> -> HC HS. intuition.
  Qed.

  Lemma stop_cases : forall ff (s : bstate D), stop ff s = true <-> ff = true /\ (b_cancelled s = true \/ b_failure s = true).
  Proof. intros. unfold stop. now rewrite andb_true_iff, orb_true_iff. Qed.

  Lemma inv_step : forall ff par l done skip s a s', inv ff par l done skip s -> act ff par items s a = Some s' ->
    exists done' skip', inv ff par (l ++ [a]) done' skip' s'.
  Proof.
    intros ff par l done skip s a s' I E. destruct a as [| |i|i|i]; cbn [Batch.act] in E.
    - (* cancel *)
      injection E as <-. exists done, skip. destruct I. constructor; cbn; auto.
      + intros H. destruct (i_skip0 H) as [H1 H2]. split; auto. apply stop_cases in H2. apply stop_cases. cbn. tauto.
      + intros i Hi. eapply J_mono; eauto; cbn; try tauto. intros H. apply stop_cases in H. apply stop_cases. cbn. tauto.
      + rewrite in_snoc. tauto.
      + rewrite i_fail0. split; intros (i & H & H2); exists i; split; auto.
        * rewrite in_snoc. tauto.
        * rewrite in_snoc in H. destruct H as [H|[H|H]]; try discriminate; auto.
      + intros i. rewrite in_snoc. rewrite <- i_fin0. split; [intros [H|H]; [auto|discriminate]|auto].
      + rewrite filter_app, app_length. cbn. lia.
    - (* a definition *)
      destruct (b_todo_defs s) as [|i rest] eqn:ET; [discriminate|].
      assert (SK : skip = []).
      { destruct skip; auto. destruct (i_skip _ _ _ _ _ _ I) as [H _]; congruence. }
      subst skip. destruct (stop ff s) eqn:ES.
      + injection E as <-. exists done, (i :: rest). destruct I. constructor; cbn; auto.
        * rewrite i_defs0, ET. now rewrite app_nil_r.
        * intros j Hj. apply i_left0. rewrite ET, app_nil_r. exact Hj.
        * rewrite in_snoc, i_cancel0. split; [auto|intros [H|H]; [auto|discriminate]].
        * rewrite i_fail0. split; intros (j & H & H2); exists j; split; auto.
          -- rewrite in_snoc. tauto.
          -- rewrite in_snoc in H. destruct H as [H|[H|H]]; try discriminate; auto.
        * intros j. rewrite in_snoc. rewrite <- i_fin0. split; [intros [H|H]; [auto|discriminate]|auto].
        * intros j Hj Hr. destruct (i_all0 j Hj Hr) as [H _]. congruence.
        * rewrite filter_app, app_length. cbn. lia.
      + destruct (def_run (code_of items i) (b_defs s)) as [ok d] eqn:ER. injection E as <-.
        exists (done ++ [i]), [].
        assert (DO : defs_of items = done ++ i :: rest) by (rewrite (i_defs _ _ _ _ _ _ I), ET, app_nil_r; auto).
        assert (Hi : In i (defs_of items)) by (rewrite DO; apply in_or_app; right; now left).
        pose proof (defs_bound _ _ Hi) as Bi.
        assert (OW : succ i = Some ok).
        { rewrite (own_def _ _ _ DO), <- (i_d _ _ _ _ _ _ I), ER. reflexivity. }
        assert (ND : NoDup (defs_of items)) by apply NoDup_filter, seq_NoDup.
        assert (NI : ~ In i done /\ ~ In i rest).
        { rewrite DO in ND. apply NoDup_remove_2 in ND. split; intros H; apply ND; apply in_or_app; auto. }
        destruct I as [ID IS Id [L1 L2] IO IU IE IN IL IX IR [IV IW] IC IF II IA [IM1 [IM2 IM3]] IT]. constructor; cbn; auto.
        * rewrite DO, app_nil_r, <- app_assoc. reflexivity.
        * congruence.
        * unfold dfold. rewrite fold_left_app. cbn. fold (dfold done d0). rewrite <- Id, ER. reflexivity.
        * now rewrite !set_length.
        * intros _. apply IE. congruence.
        * intros j Hj. apply in_snoc in Hj as [Hj| ->].
          -- destruct (IN j Hj) as (H1 & o & H2 & H3 & H4). split; auto. exists o. assert (j <> i) by (intros ->; tauto).
             rewrite !set_other by auto. auto.
          -- split; auto. exists (outcome_of ok). split; [now apply own_of|]. split; apply set_same; congruence.
        * intros j Hj. rewrite app_nil_r in Hj. assert (j <> i) by (intros ->; tauto).
          destruct (IL j) as (H1 & H2 & H3); [rewrite ET, app_nil_r; now right|].
          rewrite !set_other by auto. split; auto. intros [?|?]; congruence || tauto.
        * intros j Hj. assert (j <> i) by (intros ->; eapply not_both; eauto).
          eapply J_mono; eauto; cbn; try tauto; try (rewrite set_other by auto; reflexivity).
          -- split; [intros [?|?]; congruence || auto|auto].
          -- rewrite ES. discriminate.
        * intros j [<-|Hj]; [left; rewrite in_snoc; auto|]. destruct (IR j Hj); auto. left. rewrite in_snoc. auto.
        * split; auto. constructor; auto. apply (IL i). rewrite ET. now left.
        * rewrite in_snoc, IC. split; [auto|intros [H|H]; [auto|discriminate]].
        * rewrite orb_true_iff, IF. split.
          -- intros [(j & H & H2)|H].
             ++ exists j. split; auto. rewrite !in_snoc. tauto.
             ++ exists i. split; [left; rewrite in_snoc; auto|]. destruct ok; [discriminate|auto].
          -- intros (j & H & H2). rewrite !in_snoc in H. destruct H as [[H| ->]|[H|H]]; try discriminate; eauto.
             right. rewrite OW in H2. injection H2 as ->. reflexivity.
        * intros j. rewrite in_snoc. rewrite II. split.
          -- intros [H|H]; [|discriminate]. destruct H as (H1 & H2 & H3). auto.
          -- intros (H1 & [->|H2] & H3); [exfalso; eapply not_both; eauto|auto].
        * intros j Hj [<-|Hr]; [exfalso; eapply not_both; eauto|]. destruct (IA j Hj Hr); congruence.
        * split; [|split; [rewrite last_last; auto|lia]]. rewrite progress_snoc. split; auto. rewrite IM2.
          cbn. rewrite set_length. split; [|exact Logic.I]. split; [reflexivity|]. exists i, (outcome_of ok).
          split; [apply (IL i); rewrite ET; now left|]. split; [now apply own_of|]. split; [apply set_same; congruence|].
          intros j Hj. apply set_other. congruence.
        * rewrite filter_app, !app_length. cbn. cbn in IT. lia.
    - (* start *)
      destruct (b_todo_defs s) eqn:ET; [|discriminate].
      destruct (has i (b_todo_exprs s)) eqn:EH; [|discriminate].
      destruct (par || _) eqn:EP in E; [|discriminate]. cbn [andb] in E.
      apply has_in in EH. clear EP.
      assert (Hi : In i (exprs_of items)) by (apply (i_sub _ _ _ _ _ _ I); auto).
      pose proof (exprs_bound _ _ Hi) as Bi.
      destruct I as [ID IS Id [L1 L2] IO IU IE IN IL IX IR [IV IW] IC IF II IA [IM1 [IM2 IM3]] IT].
      assert (Ji : ~ In i (b_running s) /\ ~ In i (b_reported s) /\ ~ In i (b_ran s) /\
       nth_error (b_results s) i = Some Outstanding /\ nth_error (b_reporter s) i = Some Outstanding).
      { destruct (IX i Hi) as [H|[H|[H|[H|H]]]]; tauto. }
      assert (CA : In ACancel (l ++ [AStart i]) <-> In ACancel l) by (rewrite in_snoc; split; [intros [H|H]; [auto|discriminate]|auto]).
      assert (CF : forall j, In (AFinish j) (l ++ [AStart i]) <-> In (AFinish j) l) by (intros j; rewrite in_snoc; split; [intros [H|H]; [auto|discriminate]|auto]).
      destruct (stop ff s) eqn:ES; injection E as <-; exists done, skip.
      + constructor; cbn; auto.
        * rewrite ID, ET. reflexivity.
        * rewrite set_length. auto.
        * now apply sorted_filter.
        * intros j. rewrite drop_in. intros H. apply IU. tauto.
        * congruence.
        * intros j Hj. assert (j <> i) by (intros ->; eapply not_both; [|exact Hi]; rewrite ID; apply in_or_app; auto).
          destruct (IN j Hj) as (H1 & o & H2 & H3 & H4). split; auto. exists o. rewrite set_other by auto. auto.
        * intros j Hj. assert (j <> i) by (intros ->; eapply not_both; [|exact Hi]; rewrite ID, ET; apply in_or_app; auto).
          rewrite set_other by auto. apply IL. rewrite ET. auto.
        * intros j Hj. destruct (Nat.eq_dec j i) as [->|Hn].
          -- right; right; right; right. cbn. rewrite drop_in. split; [tauto|]. do 3 (split; [tauto|]).
             split; [exact ES|]. split; [tauto|]. destruct (b_cancelled s); [right|left]; rewrite set_same by congruence; auto.
          -- specialize (IX j Hj). unfold J in IX |- *. cbn. rewrite set_other, drop_in by auto. unfold stop in IX |- *. cbn in *.
             destruct IX as [IX|[IX|[IX|[IX|IX]]]]; [left|right; left|right; right; left|right; right; right; left|right; right; right; right]; (intuition).
        * rewrite CA. exact IC.
        * rewrite IF. split; intros (j & H & H2); exists j; rewrite CF in *; auto.
        * intros j. rewrite CF. apply II.
        * intros j Hj Hr. destruct (IA j Hj Hr). auto.
        * rewrite filter_app, app_length. cbn. lia.
      + assert (SK : skip = []). { destruct skip; auto. destruct IS as [_ H]; congruence. } subst skip.
        constructor; cbn; auto.
        * rewrite ID, ET. reflexivity.
        * now apply sorted_filter.
        * intros j. rewrite drop_in. intros [H|[[<-|H]|H]]; auto. apply IU. tauto.
        * congruence.
        * intros j Hj. destruct (IN j Hj). auto.
        * intros j [].
        * intros j Hj. destruct (Nat.eq_dec j i) as [->|Hn].
          -- right; left. cbn. rewrite drop_in. tauto.
          -- specialize (IX j Hj). unfold J in IX |- *. cbn. rewrite drop_in. unfold stop in IX |- *. cbn in *.
             destruct IX as [IX|[IX|[IX|[IX|IX]]]]; [left|right; left|right; right; left|right; right; right; left|right; right; right; right]; (intuition; try congruence).
        * intros j [<-|Hj]; auto.
        * split; constructor; tauto.
        * rewrite CA. exact IC.
        * rewrite IF. split; intros (j & H & H2); exists j; rewrite CF in *; auto.
        * intros j. rewrite CF, II. split.
          -- intros (H1 & H2 & H3 & H4). assert (j <> i) by (intros ->; tauto). intuition.
          -- intros (H1 & [->|H2] & H3 & H4); [exfalso; apply H3; auto|intuition].
        * split; auto. split; auto. lia.
        * rewrite filter_app, app_length. cbn. lia.
    - (* report *)
      destruct (has i (b_running s)) eqn:EH; [|discriminate]. apply has_in in EH. injection E as <-. exists done, skip.
      assert (Hi : In i (exprs_of items)) by (apply (i_sub _ _ _ _ _ _ I); auto).
      pose proof (exprs_bound _ _ Hi) as Bi.
      destruct I as [ID IS Id [L1 L2] IO IU IE IN IL IX IR [IV IW] IC IF II IA [IM1 [IM2 IM3]] IT].
      assert (Ji : ~ In i (b_todo_exprs s) /\ ~ In i (b_reported s) /\ In i (b_ran s) /\
       nth_error (b_results s) i = Some Outstanding /\ nth_error (b_reporter s) i = Some Outstanding).
      { destruct (IX i Hi) as [H|[H|[H|[H|H]]]]; tauto. }
      destruct (IA i Hi) as [ET SK]; [tauto|]. subst skip.
      assert (OW : succ i = Some (expr_run (code_of items i) (b_defs s))).
      { rewrite own_expr by auto. rewrite Id. do 3 f_equal. rewrite ID, ET, !app_nil_r. reflexivity. }
      set (ok := expr_run (code_of items i) (b_defs s)) in *.
      assert (CA : In ACancel (l ++ [AReport i]) <-> In ACancel l) by (rewrite in_snoc; split; [intros [H|H]; [auto|discriminate]|auto]).
      assert (CF : forall j, In (AFinish j) (l ++ [AReport i]) <-> In (AFinish j) l) by (intros j; rewrite in_snoc; split; [intros [H|H]; [auto|discriminate]|auto]).
      constructor; cbn; auto.
      + now rewrite set_length.
      + intros j. rewrite drop_in. intros [H|[H|[<-|H]]]; auto; apply IU; tauto.
      + intros j Hj. assert (j <> i) by (intros ->; eapply not_both; [|exact Hi]; rewrite ID; apply in_or_app; auto).
        destruct (IN j Hj) as (H1 & o & H2 & H3 & H4). split; auto. exists o. rewrite set_other by auto. auto.
      + intros j Hj. rewrite ET in Hj. destruct Hj.
      + intros j Hj. destruct (Nat.eq_dec j i) as [->|Hn].
        * right; right; left. cbn. rewrite drop_in. split; [tauto|]. split; [tauto|]. split; [tauto|]. split; [tauto|]. split; [tauto|].
          exists (outcome_of ok). split; [now apply own_of|apply set_same; congruence].
        * specialize (IX j Hj). unfold J in IX |- *. cbn. rewrite set_other, drop_in by auto. unfold stop in IX |- *. cbn in *.
          destruct IX as [IX|[IX|[IX|[IX|IX]]]]; [left|right; left|right; right; left|right; right; right; left|right; right; right; right]; (intuition; try congruence).
      + split; auto. now apply drop_nodup.
      + rewrite CA. exact IC.
      + rewrite IF. split; intros (j & H & H2); exists j; rewrite CF in *; auto.
      + intros j. rewrite CF, II, drop_in. split.
        * intros (H1 & H2 & H3 & H4). assert (j <> i) by (intros ->; tauto). intuition.
        * intros (H1 & H2 & H3 & H4). assert (j <> i) by (intros ->; apply H4; auto). intuition.
      + split; [|split; [rewrite last_last; auto|]].
        * rewrite progress_snoc. split; auto. rewrite IM2.
          cbn. rewrite set_length. split; [|exact Logic.I]. split; [reflexivity|]. exists i, (outcome_of ok).
          split; [tauto|]. split; [now apply own_of|]. split; [apply set_same; congruence|].
          intros j Hj. apply set_other. congruence.
        * assert (length (b_running s) = S (length (drop i (b_running s)))); [|lia].
          clear - EH IW. induction (b_running s) as [|x r IH]; [destruct EH|]. inversion IW; subst. unfold drop in *. cbn.
          destruct EH as [->|EH].
          -- rewrite Nat.eqb_refl. cbn. f_equal. clear - H1. induction r as [|y r IH]; [reflexivity|]. cbn.
             destruct (Nat.eqb_spec i y) as [->|]; cbn; [exfalso; apply H1; now left|]. f_equal. apply IH. intros H. apply H1. now right.
          -- destruct (Nat.eqb_spec i x) as [->|]; [tauto|]. cbn. f_equal. auto.
      + rewrite filter_app, app_length. cbn. lia.
    - (* finish *)
      destruct (has i (b_reported s)) eqn:EH; [|discriminate]. apply has_in in EH. injection E as <-. exists done, skip.
      assert (Hi : In i (exprs_of items)) by (apply (i_sub _ _ _ _ _ _ I); auto).
      pose proof (exprs_bound _ _ Hi) as Bi.
      destruct I as [ID IS Id [L1 L2] IO IU IE IN IL IX IR [IV IW] IC IF II IA [IM1 [IM2 IM3]] IT].
      assert (Ji : ~ In i (b_todo_exprs s) /\ ~ In i (b_running s) /\ In i (b_ran s) /\
       nth_error (b_results s) i = Some Outstanding /\ exists o, own i o /\ nth_error (b_reporter s) i = Some o).
      { destruct (IX i Hi) as [H|[H|[H|[H|H]]]]; tauto. }
      destruct (IA i Hi) as [ET SK]; [tauto|]. subst skip.
      assert (OW : succ i = Some (expr_run (code_of items i) (b_defs s))).
      { rewrite own_expr by auto. rewrite Id. do 3 f_equal. rewrite ID, ET, !app_nil_r. reflexivity. }
      set (ok := expr_run (code_of items i) (b_defs s)) in *.
      assert (CA : In ACancel (l ++ [AFinish i]) <-> In ACancel l) by (rewrite in_snoc; split; [intros [H|H]; [auto|discriminate]|auto]).
      constructor; cbn; auto.
      + now rewrite set_length.
      + intros j. rewrite drop_in. intros H. apply IU. tauto.
      + intros j Hj. assert (j <> i) by (intros ->; eapply not_both; [|exact Hi]; rewrite ID; apply in_or_app; auto).
        destruct (IN j Hj) as (H1 & o & H2 & H3 & H4). split; auto. exists o. rewrite set_other by auto. auto.
      + intros j Hj. rewrite ET in Hj. destruct Hj.
      + intros j Hj. destruct (Nat.eq_dec j i) as [->|Hn].
        * right; right; right; left. cbn. rewrite drop_in. do 4 (split; [tauto|]).
          exists (outcome_of ok). split; [now apply own_of|]. split; [apply set_same; congruence|].
          destruct Ji as (_ & _ & _ & _ & o & Ho & Hr). rewrite Hr. f_equal.
          destruct Ho as [[H ->]|[H ->]]; rewrite OW in H; injection H as ->; reflexivity.
        * specialize (IX j Hj). unfold J in IX |- *. cbn. rewrite set_other, drop_in by auto. unfold stop in IX |- *. cbn in *.
          assert (forall b, ff && (b_cancelled s || b_failure s) = true -> ff && (b_cancelled s || (b_failure s || b)) = true).
          { intros b H. destruct ff, (b_cancelled s), (b_failure s); cbn in *; auto; discriminate. }
          destruct IX as [IX|[IX|[IX|[IX|IX]]]]; [left|right; left|right; right; left|right; right; right; left|right; right; right; right]; (intuition).
      + rewrite CA. exact IC.
      + rewrite orb_true_iff, IF. split.
        * intros [(j & H & H2)|H].
          -- exists j. split; auto. rewrite in_snoc. tauto.
          -- exists i. split; [right; rewrite in_snoc; auto|]. destruct ok; [discriminate|auto].
        * intros (j & H & H2). rewrite in_snoc in H. destruct H as [H|[H|H]]; eauto.
          injection H as ->. right. rewrite OW in H2. injection H2 as ->. reflexivity.
      + intros j. rewrite in_snoc, II, drop_in. split.
        * intros [(H1 & H2 & H3 & H4)|[= ->]]; [|tauto]. tauto.
        * intros (H1 & H2 & H3 & H4). destruct (Nat.eq_dec j i) as [->|Hn]; auto. left. tauto.
      + rewrite filter_app, app_length. cbn. lia.
  Qed.

  Lemma acts_app : forall ff par l1 l2 s, acts ff par items s (l1 ++ l2) =
    match acts ff par items s l1 with Some s => acts ff par items s l2 | None => None end.
  Proof. intros ff par. induction l1; intros l2 s; cbn; auto. destruct (act ff par items s a); auto. Qed.

  Lemma inv_run : forall ff par l s, acts ff par items (batch_init items d0) l = Some s -> exists done skip, inv ff par l done skip s.
  Proof.
    intros ff par. induction l as [|a l IH] using rev_ind; intros s E.
    - injection E as <-. exists [], []. apply inv_init.
    - rewrite acts_app in E. destruct (acts ff par items (batch_init items d0) l) as [s1|]; [|discriminate].
      destruct (IH s1 eq_refl) as (dn & sk & I). cbn [Batch.acts] in E. destruct (act ff par items s1 a) as [s2|] eqn:E2; [|discriminate].
      injection E as <-. eapply inv_step; eauto.
  Qed.

  Lemma act_ran : forall ff par s a s', act ff par items s a = Some s' -> incl (b_ran s) (b_ran s').
  Proof.
    intros ff par s a s' E. destruct a as [| |i|i|i]; cbn [Batch.act] in E.
    - injection E as <-. cbn. apply incl_refl.
    - destruct (b_todo_defs s); [discriminate|]. destruct (stop ff s); [injection E as <-; apply incl_refl|].
      destruct (def_run _ _). injection E as <-. cbn. apply incl_tl, incl_refl.
    - destruct (_ && _ && _); [|discriminate]. destruct (stop ff s); injection E as <-; cbn; [apply incl_refl|apply incl_tl, incl_refl].
    - destruct (has _ _); [|discriminate]. injection E as <-. apply incl_refl.
    - destruct (has _ _); [|discriminate]. injection E as <-. apply incl_refl.
  Qed.
  Lemma acts_ran : forall ff par l s s', acts ff par items s l = Some s' -> incl (b_ran s) (b_ran s').
  Proof.
    intros ff par. induction l as [|a l IH]; intros s s' E; cbn in E; [injection E as <-; apply incl_refl|].
    destruct (act ff par items s a) as [s1|] eqn:E1; [|discriminate]. eapply incl_tran; [eapply act_ran; eauto|eauto].
  Qed.

  Lemma process_inv : forall ff par l res ran msgs, process def_run expr_run ff par items d0 l = Some (res, ran, msgs) ->
    exists s done skip, acts ff par items (batch_init items d0) l = Some s /\ inv ff par l done skip s /\
      b_todo_defs s = [] /\ b_todo_exprs s = [] /\ b_running s = [] /\ b_reported s = [] /\
      res = final s /\ ran = rev (b_ran s) /\ msgs = rev (b_sent s).
  Proof.
    intros ff par l res ran msgs E. unfold process in E.
    destruct (acts ff par items (batch_init items d0) l) as [s|] eqn:EA; [|discriminate].
    destruct (finished s) eqn:EF; [|discriminate]. injection E as <- <- <-.
    destruct (inv_run _ _ _ _ EA) as (dn & sk & I). exists s, dn, sk.
    unfold finished in EF. destruct (b_todo_defs s), (b_todo_exprs s), (b_running s), (b_reported s); try discriminate. auto 10.
  Qed.

  Lemma nth_final : forall (s : bstate D) i o, nth_error (b_results s) i = Some o ->
    nth_error (final s) i = Some (if b_cancelled s then match o with Outstanding => Cancelled | o => o end else o).
  Proof.
    intros s i o H. unfold final. destruct (b_cancelled s); auto. now rewrite nth_error_map, H.
  Qed.

  Theorem outcomes : forall ff par l res ran msgs, process def_run expr_run ff par items d0 l = Some (res, ran, msgs) ->
    length res = length items /\ NoDup ran /\
    forall i, (In i ran -> exists o, nth_error res i = Some o /\ own i o) /\
              (i < length items -> ~ In i ran ->
                 (In ACancel l -> nth_error res i = Some Cancelled) /\ (~ In ACancel l -> nth_error res i = Some Outstanding)).
  Proof.
    intros ff par l res ran msgs E. destruct (process_inv _ _ _ _ _ _ E) as (s & dn & sk & _ & I & T1 & T2 & T3 & T4 & -> & -> & ->).
    destruct I as [ID IS Id [L1 L2] IO IU IE IN IL IX IR [IV IW] IC IF II IA _ IT].
    split; [unfold final; destruct (b_cancelled s); rewrite ?map_length; auto|]. split; [now apply NoDup_rev|].
    assert (OWN : forall i o, nth_error (b_results s) i = Some o -> own i o -> nth_error (final s) i = Some o).
    { intros i o H1 H2. rewrite (nth_final _ _ _ H1). destruct (b_cancelled s); auto. destruct H2 as [[_ ->]|[_ ->]]; auto. }
    assert (OUT : forall i, nth_error (b_results s) i = Some Outstanding \/ (nth_error (b_results s) i = Some Cancelled /\ b_cancelled s = true) ->
      (In ACancel l -> nth_error (final s) i = Some Cancelled) /\ (~ In ACancel l -> nth_error (final s) i = Some Outstanding)).
    { intros i H. rewrite <- IC. destruct (b_cancelled s) eqn:EC.
      - split; [intros _|congruence]. destruct H as [H|[H _]]; rewrite (nth_final _ _ _ H), EC; reflexivity.
      - split; [congruence|intros _]. destruct H as [H|[H X]]; [|congruence]. rewrite (nth_final _ _ _ H), EC. reflexivity. }
    intros i. rewrite <- in_rev. split.
    - intros Hr. destruct (IR i Hr) as [Hd|Hx].
      + destruct (IN i Hd) as (_ & o & H1 & H2 & _). exists o. split; auto.
      + specialize (IX i Hx). unfold J in IX. rewrite T2, T3, T4 in IX. cbn in IX.
        destruct IX as [?|[?|[?|[(_ & _ & _ & _ & o & H1 & H2 & _)|(_ & _ & _ & H & _)]]]]; try tauto. exists o. split; auto.
    - intros Hi Hr. apply OUT. destruct (one_kind _ _ Hi) as [Hd|Hx].
      + rewrite ID in Hd. apply in_app_or in Hd as [Hd|Hd]; [destruct (IN i Hd); tauto|]. left. apply (IL i Hd).
      + specialize (IX i Hx). unfold J in IX. rewrite T2, T3, T4 in IX. cbn in IX.
        destruct IX as [?|[?|[?|[?|(_ & _ & _ & _ & _ & _ & H)]]]]; tauto.
  Qed.

  Theorem ran_bound : forall ff par l res ran msgs, process def_run expr_run ff par items d0 l = Some (res, ran, msgs) ->
    forall i, In i ran -> i < length items.
  Proof.
    intros ff par l res ran msgs E i. destruct (process_inv _ _ _ _ _ _ E) as (s & dn & sk & _ & I & T1 & T2 & T3 & T4 & -> & -> & ->).
    rewrite <- in_rev. intros H. destruct (i_ran _ _ _ _ _ _ I i H) as [Hd|Hx]; [|now apply exprs_bound].
    apply defs_bound. rewrite (i_defs _ _ _ _ _ _ I). apply in_or_app. auto.
  Qed.

  Theorem all_run : forall par l res ran msgs, process def_run expr_run false par items d0 l = Some (res, ran, msgs) ->
    forall i, i < length items -> In i ran.
  Proof.
    intros par l res ran msgs E i Hi. destruct (process_inv _ _ _ _ _ _ E) as (s & dn & sk & _ & I & T1 & T2 & T3 & T4 & -> & -> & ->).
    rewrite <- in_rev. destruct I as [ID IS Id [L1 L2] IO IU IE IN IL IX IR [IV IW] IC IF II IA _ IT].
    assert (sk = []). { destruct sk; auto. destruct IS as [_ H]; [congruence|]. apply stop_cases in H. destruct H; discriminate. } subst sk.
    destruct (one_kind _ _ Hi) as [Hd|Hx].
    - rewrite ID, T1, !app_nil_r in Hd. now destruct (IN i Hd).
    - specialize (IX i Hx). unfold J in IX. rewrite T2, T3, T4 in IX. cbn in IX.
      destruct IX as [?|[?|[?|[?|(_ & _ & _ & _ & H & _)]]]]; try tauto. discriminate.
  Qed.

  (** ** Fail-fast *)
  Lemma defs_sorted : StronglySorted lt (defs_of items).
  Proof. apply sorted_filter, sorted_seq. Qed.
  Lemma sorted_app : forall a b, StronglySorted lt (a ++ b) -> forall x y, In x a -> In y b -> x < y.
  Proof.
    induction a as [|z a IH]; intros b H x y Hx Hy; [destruct Hx|]. cbn in H. inversion H; subst. destruct Hx as [->|Hx]; eauto.
    rewrite Forall_forall in H3. apply H3. apply in_or_app. auto.
  Qed.

  Lemma start_spec : forall par l1 i l2 res ran msgs,
    process def_run expr_run true par items d0 (l1 ++ AStart i :: l2) = Some (res, ran, msgs) ->
    In i ran <-> ~ In ACancel l1 /\ (forall j, is_def items j -> succ j = Some true) /\
                 (forall j, In (AFinish j) l1 -> succ j = Some true).
  Proof.
    intros par l1 i l2 res ran msgs E.
    destruct (process_inv _ _ _ _ _ _ E) as (s & dn & sk & EA & I & T1 & T2 & T3 & T4 & -> & -> & ->).
    rewrite acts_app in EA. destruct (acts true par items (batch_init items d0) l1) as [s1|] eqn:E1; [|discriminate].
    cbn [Batch.acts] in EA. destruct (act true par items s1 (AStart i)) as [s2|] eqn:E2; [|discriminate].
    destruct (inv_run _ _ _ _ E1) as (dn1 & sk1 & I1).
    assert (E12 : acts true par items (batch_init items d0) (l1 ++ [AStart i]) = Some s2) by (rewrite acts_app, E1; cbn [Batch.acts]; now rewrite E2).
    destruct (inv_run _ _ _ _ E12) as (dn2 & sk2 & I2).
    pose proof E2 as E2'. cbn [Batch.act] in E2. destruct (b_todo_defs s1) eqn:ET; [|discriminate].
    destruct (has i (b_todo_exprs s1)) eqn:EH; [|discriminate]. apply has_in in EH.
    destruct (par || _) eqn:EPR in E2; [|discriminate]. cbn [andb] in E2.
    assert (Hi : In i (exprs_of items)) by (apply (i_sub _ _ _ _ _ _ I1); auto).
    assert (BD : forall j, succ j = Some true <-> (j < length items /\ succ j <> Some false)).
    { intros j. unfold succeeds. destruct (nth_error items j) as [it|] eqn:En.
      - assert (j < length items) by (apply nth_error_Some; congruence).
        destruct (it_type it); [destruct (expr_run _ _)|destruct (fst _)|destruct (fst _)]; split; auto; try discriminate; try tauto;
          try (intros [_ X]; congruence); intros _; split; auto; discriminate.
      - split; [discriminate|]. intros [H _]. apply nth_error_None in En. lia. }
    rewrite <- in_rev. destruct (stop true s1) eqn:ES.
    - injection E2 as <-. split.
      + intros Hr. exfalso.
        assert (S2 : ~ In i (b_ran s1)). { destruct (i_x _ _ _ _ _ _ I1 i Hi) as [H|[H|[H|[H|H]]]]; tauto. }
        (* i is not in todo, running, reported of s2, and not in ran: stays so *)
        assert (G : forall l s3 s4, acts true par items s3 l = Some s4 -> ~ In i (b_todo_exprs s3) -> ~ In i (b_todo_defs s3) -> ~ In i (b_ran s3) -> ~ In i (b_ran s4)).
        { induction l as [|a l IH]; intros s3 s4 E4 G1 G2 G3; cbn in E4; [injection E4 as <-; auto|].
          destruct (act true par items s3 a) as [s5|] eqn:E5; [|discriminate]. apply (IH _ _ E4); clear IH E4;
          (destruct a as [| |k|k|k]; cbn [Batch.act] in E5;
            [injection E5 as <-; auto
            |destruct (b_todo_defs s3) as [|k r] eqn:EK; [discriminate|]; destruct (stop true s3);
              [injection E5 as <-; auto|destruct (def_run _ _); injection E5 as <-; cbn in *; intuition]
            |destruct (_ && has k (b_todo_exprs s3) && _) eqn:EK; [|discriminate];
              apply andb_true_iff in EK as [EK _]; apply andb_true_iff in EK as [_ EK]; apply has_in in EK;
              destruct (stop true s3); injection E5 as <-; cbn; rewrite ?drop_in; intuition congruence
            |destruct (has _ _); [|discriminate]; injection E5 as <-; auto
            |destruct (has _ _); [|discriminate]; injection E5 as <-; auto]). }
        eapply G; [exact EA| | | |exact Hr]; cbn; auto. rewrite drop_in. tauto.
      + intros (H1 & H2 & H3). exfalso. apply stop_cases in ES. destruct ES as [_ [H|H]].
        * apply H1. now apply (i_cancel _ _ _ _ _ _ I1).
        * apply (i_fail _ _ _ _ _ _ I1) in H as (j & [Hj|Hj] & Hf).
          -- rewrite H2 in Hf; [discriminate|]. apply is_def_in. rewrite (i_defs _ _ _ _ _ _ I1). apply in_or_app. auto.
          -- rewrite H3 in Hf; [discriminate|auto].
    - split.
      + intros _. assert (NS : ~ (b_cancelled s1 = true \/ b_failure s1 = true)).
        { intros H. assert (stop true s1 = true) by (apply stop_cases; auto). congruence. }
        assert (sk1 = []). { destruct sk1; auto. destruct (i_skip _ _ _ _ _ _ I1) as [_ H]; congruence. } subst sk1.
        split; [|split].
        * rewrite <- (i_cancel _ _ _ _ _ _ I1). tauto.
        * intros j Hj. apply is_def_in in Hj. apply BD. split; [now apply defs_bound|]. intros Hf. apply NS. right.
          apply (i_fail _ _ _ _ _ _ I1). exists j. split; auto. left. rewrite (i_defs _ _ _ _ _ _ I1), ET, !app_nil_r in Hj. auto.
        * intros j Hj. apply BD. split; [apply exprs_bound; now apply (i_fin _ _ _ _ _ _ I1)|]. intros Hf. apply NS. right.
          apply (i_fail _ _ _ _ _ _ I1). eauto.
      + intros _. injection E2 as <-. apply (acts_ran _ _ _ _ _ EA). cbn. auto.
  Qed.

  Lemma started : forall ff par l res ran msgs, process def_run expr_run ff par items d0 l = Some (res, ran, msgs) ->
    forall i, In (AStart i) l <-> is_xpr items i.
  Proof.
    intros ff par l res ran msgs E i. destruct (process_inv _ _ _ _ _ _ E) as (s & dn & sk & EA & I & T1 & T2 & T3 & T4 & _).
    assert (G : forall l s, acts ff par items (batch_init items d0) l = Some s -> In (AStart i) l <-> In i (exprs_of items) /\ ~ In i (b_todo_exprs s)).
    { clear. induction l as [|a l IH] using rev_ind; intros s E.
      - injection E as <-. unfold batch_init. rewrite split_spec. cbn. tauto.
      - rewrite acts_app in E. destruct (acts ff par items (batch_init items d0) l) as [s1|] eqn:E1; [|discriminate].
        destruct (inv_run _ _ _ _ E1) as (dn & sk & I1). pose proof (i_sub _ _ _ _ _ _ I1) as IU.
        specialize (IH s1 eq_refl). cbn [Batch.acts] in E. destruct (act ff par items s1 a) as [s2|] eqn:E2; [|discriminate]. injection E as <-.
        rewrite in_snoc, IH. destruct a as [| |k|k|k]; cbn [Batch.act] in E2.
        + injection E2 as <-. cbn. intuition discriminate.
        + destruct (b_todo_defs s1); [discriminate|]. destruct (stop ff s1); [injection E2 as <-; cbn; intuition discriminate|].
          destruct (def_run _ _). injection E2 as <-. cbn. intuition discriminate.
        + destruct (_ && has k (b_todo_exprs s1) && _) eqn:EK; [|discriminate].
          apply andb_true_iff in EK as [EK _]. apply andb_true_iff in EK as [_ EK]. apply has_in in EK.
          assert (b_todo_exprs s2 = drop k (b_todo_exprs s1)) by (destruct (stop ff s1); injection E2 as <-; reflexivity).
          rewrite H, drop_in. split.
          * intros [H1|[= ->]]; [tauto|]. split; [apply IU; auto|tauto].
          * intros [H1 H2]. destruct (Nat.eq_dec i k) as [->|Hn]; [auto|]. left. tauto.
        + destruct (has _ _); [|discriminate]. injection E2 as <-. cbn. intuition discriminate.
        + destruct (has _ _); [|discriminate]. injection E2 as <-. cbn. intuition discriminate. }
    rewrite (G l s EA), T2. cbn. rewrite is_xpr_in. tauto.
  Qed.

  (** The definition loop. *)
  Lemma def_spec : forall par l res ran msgs i, is_def items i ->
    process def_run expr_run true par items d0 l = Some (res, ran, msgs) ->
    In i ran <-> (forall j, is_def items j -> j < i -> succ j = Some true) /\
      exists l1 l2, l = l1 ++ ADef :: l2 /\ ~ In ACancel l1 /\
        length (filter is_adef l1) = length (filter (fun j => negb (isx items j)) (seq 0 i)).
  Proof.
    intros par l res ran msgs i Hd E.
    destruct (process_inv _ _ _ _ _ _ E) as (s & dn & sk & EA & I & T1 & T2 & T3 & T4 & -> & -> & ->).
    rewrite <- in_rev. clear E T1 T2 T3 T4 I dn sk. apply is_def_in in Hd.
    assert (BD : forall j, j < length items -> succ j <> Some false -> succ j = Some true).
    { intros j Hj. unfold succeeds. destruct (nth_error items j) as [it|] eqn:En.
      - destruct (it_type it); [destruct (expr_run _ _)|destruct (fst _)|destruct (fst _)]; congruence.
      - apply nth_error_None in En. lia. }
    split.
    - revert s EA. induction l as [|a l IH] using rev_ind; intros s EA Hr.
      + injection EA as <-. unfold batch_init in Hr. rewrite split_spec in Hr. destruct Hr.
      + rewrite acts_app in EA. destruct (acts true par items (batch_init items d0) l) as [s1|] eqn:E1; [|discriminate].
        cbn [Batch.acts] in EA. destruct (act true par items s1 a) as [s2|] eqn:E2; [|discriminate]. injection EA as <-.
        destruct (in_dec Nat.eq_dec i (b_ran s1)) as [H1|H1].
        { destruct (IH s1 eq_refl H1) as (H2 & l1 & l2 & -> & H3). split; auto. exists l1, (l2 ++ [a]). rewrite <- app_assoc. auto. }
        destruct (inv_run _ _ _ _ E1) as (dn1 & sk1 & I1).
        destruct a as [| |k|k|k]; cbn [Batch.act] in E2.
        * injection E2 as <-. tauto.
        * destruct (b_todo_defs s1) as [|k r] eqn:ET; [discriminate|]. destruct (stop true s1) eqn:ES; [injection E2 as <-; tauto|].
          destruct (def_run _ _). injection E2 as <-. cbn in Hr. destruct Hr as [->|Hr]; [|tauto].
          assert (sk1 = []). { destruct sk1; auto. destruct (i_skip _ _ _ _ _ _ I1) as [H _]; congruence. } subst sk1.
          assert (NS : ~ (b_cancelled s1 = true \/ b_failure s1 = true)).
          { intros H. assert (stop true s1 = true) by (apply stop_cases; auto). congruence. }
          pose proof (i_defs _ _ _ _ _ _ I1) as ID. rewrite ET, app_nil_r in ID.
          split.
          -- intros j Hj Hlt. apply is_def_in in Hj. apply BD; [now apply defs_bound|]. intros Hf. apply NS. right.
             apply (i_fail _ _ _ _ _ _ I1). exists j. split; auto. left. rewrite ID in Hj. apply in_app_or in Hj as [Hj|[->|Hj]]; auto; [lia|].
             exfalso. pose proof defs_sorted as SS. rewrite ID in SS. change (i :: r) with ([i] ++ r) in SS. rewrite app_assoc in SS.
             assert (i < j); [|lia]. apply (sorted_app _ _ SS); auto. apply in_or_app. right. now left.
          -- exists l, []. split; auto. split; [rewrite <- (i_cancel _ _ _ _ _ _ I1); tauto|].
             rewrite (i_count _ _ _ _ _ _ I1), Nat.add_0_r. f_equal. eapply defs_split; eauto.
        * destruct (_ && has k (b_todo_exprs s1) && _) eqn:EK; [|discriminate].
          apply andb_true_iff in EK as [EK _]. apply andb_true_iff in EK as [_ EK]. apply has_in in EK.
          destruct (stop true s1); injection E2 as <-; cbn in Hr; [tauto|]. destruct Hr as [->|Hr]; [|tauto].
          exfalso. eapply not_both; [exact Hd|]. apply (i_sub _ _ _ _ _ _ I1). auto.
        * destruct (has _ _); [|discriminate]. injection E2 as <-. tauto.
        * destruct (has _ _); [|discriminate]. injection E2 as <-. tauto.
    - intros (HS & l1 & l2 & -> & HC & HN).
      rewrite acts_app in EA. destruct (acts true par items (batch_init items d0) l1) as [s1|] eqn:E1; [|discriminate].
      cbn [Batch.acts] in EA. destruct (act true par items s1 ADef) as [s2|] eqn:E2; [|discriminate].
      destruct (inv_run _ _ _ _ E1) as (dn1 & sk1 & I1). cbn [Batch.act] in E2.
      destruct (b_todo_defs s1) as [|k r] eqn:ET; [discriminate|].
      assert (sk1 = []). { destruct sk1; auto. destruct (i_skip _ _ _ _ _ _ I1) as [H _]; congruence. } subst sk1.
      pose proof (i_defs _ _ _ _ _ _ I1) as ID. rewrite ET, app_nil_r in ID.
      rewrite (i_count _ _ _ _ _ _ I1), Nat.add_0_r in HN.
      assert (EI : k = i /\ dn1 = filter (fun j => negb (isx items j)) (seq 0 i)).
      { apply in_split in Hd as (a & b & Hab). pose proof (defs_split _ _ _ Hab) as ->. rewrite Hab in ID. clear - ID HN.
        revert HN ID. generalize (filter (fun j => negb (isx items j)) (seq 0 i)). induction dn1 as [|x dn1 IH]; intros [|y l] HN ID; try discriminate.
        - injection ID as -> _. auto.
        - injection ID as <- ID. injection HN as HN. destruct (IH _ HN ID) as [-> ->]. auto. }
      destruct EI as [-> ->].
      destruct (stop true s1) eqn:ES.
      + exfalso. apply stop_cases in ES. destruct ES as [_ [H|H]]; [apply HC; now apply (i_cancel _ _ _ _ _ _ I1)|].
        apply (i_fail _ _ _ _ _ _ I1) in H as (j & [Hj|Hj] & Hf).
        * rewrite HS in Hf; [discriminate| |apply filter_In in Hj as [Hj _]; apply in_seq in Hj; lia].
          apply is_def_in. rewrite ID. apply in_or_app. auto.
        * apply (i_fin _ _ _ _ _ _ I1) in Hj as (H1 & H2 & _). destruct (i_all _ _ _ _ _ _ I1 j H1 H2). congruence.
      + destruct (def_run _ _). injection E2 as <-. apply (acts_ran _ _ _ _ _ EA). cbn. auto.
  Qed.

  (** ** Sequential runs *)
  Definition seq_inv (s : bstate D) : Prop :=
    StronglySorted (earlier items) (rev (b_ran s)) /\
    (forall i j, In i (b_ran s) -> In j (b_todo_exprs s) -> earlier items i j) /\
    (forall i j, In i (b_ran s) -> In j (b_todo_defs s) -> earlier items i j).

  Lemma sorted_snoc' : forall A (R : A -> A -> Prop) l x, StronglySorted R l -> (forall y, In y l -> R y x) -> StronglySorted R (l ++ [x]).
  Proof.
    intros A R l x H. induction H; intros HF; cbn; constructor; auto.
    - constructor.
    - apply IHStronglySorted. intros y Hy. apply HF. now right.
    - apply Forall_app. split; auto. constructor; auto. apply HF. now left.
  Qed.

  Lemma seq_run : forall ff l s, acts ff false items (batch_init items d0) l = Some s -> seq_inv s.
  Proof.
    intros ff. induction l as [|a l IH] using rev_ind; intros s E.
    - injection E as <-. unfold batch_init. rewrite split_spec. split; [constructor|]. split; intros i j [].
    - rewrite acts_app in E. destruct (acts ff false items (batch_init items d0) l) as [s1|] eqn:E1; [|discriminate].
      destruct (inv_run _ _ _ _ E1) as (dn & sk & I1). destruct (IH s1 eq_refl) as (S1 & S2 & S3).
      cbn [Batch.acts] in E. destruct (act ff false items s1 a) as [s2|] eqn:E2; [|discriminate]. injection E as <-.
      destruct a as [| |k|k|k]; cbn [Batch.act] in E2.
      + injection E2 as <-. split; auto.
      + destruct (b_todo_defs s1) as [|k r] eqn:ET; [discriminate|]. destruct (stop ff s1); [injection E2 as <-; split; cbn; auto; split; auto; intros ? ? ? []|].
        destruct (def_run _ _). injection E2 as <-. unfold seq_inv. cbn.
        pose proof (i_defs _ _ _ _ _ _ I1) as ID. rewrite ET in ID.
        assert (Hk : In k (defs_of items)) by (rewrite ID; apply in_or_app; right; now left).
        split; [|split].
        * apply sorted_snoc'; auto. intros y Hy. apply in_rev in Hy. apply S3; auto. now left.
        * intros i j [<-|Hi] Hj; [|auto]. right; left. split; [now apply is_def_in|]. apply is_xpr_in. apply (i_sub _ _ _ _ _ _ I1). auto.
        * intros i j [<-|Hi] Hj; [|apply S3; auto; now right]. left. split; [now apply is_def_in|]. split.
          -- apply is_def_in. rewrite ID. apply in_or_app. right. apply in_or_app. left. now right.
          -- pose proof defs_sorted as SS. rewrite ID in SS. change ((k :: r) ++ sk) with ([k] ++ r ++ sk) in SS. rewrite app_assoc in SS.
             apply (sorted_app _ _ SS); apply in_or_app; [right; now left|auto].
      + destruct (b_todo_defs s1) eqn:ET; [|discriminate].
        destruct (has k (b_todo_exprs s1)) eqn:EK; [|discriminate]. apply has_in in EK. cbn [andb orb] in E2.
        destruct (b_todo_exprs s1) as [|k' r] eqn:EX; [discriminate|]. destruct (Nat.eqb_spec k k') as [<-|]; [|discriminate].
        pose proof (i_sorted _ _ _ _ _ _ I1) as IO. rewrite EX in IO. inversion IO; subst. rewrite Forall_forall in H2.
        assert (SUB : forall j, In j (drop k (k :: r)) -> In j r /\ k < j).
        { intros j Hj. apply drop_in in Hj as [[->|Hj] Hn]; [congruence|]. split; auto. }
        destruct (b_running s1), (b_reported s1); try discriminate. cbn [andb] in E2.
        destruct (stop ff s1); injection E2 as <-; unfold seq_inv; cbn [b_ran b_todo_exprs b_todo_defs].
        * split; auto. split; [|intros i j _ []]. intros i j Hi Hj. apply SUB in Hj as [Hj _]. apply S2; auto. now right.
        * split; [cbn; apply sorted_snoc'; auto; intros y Hy; apply in_rev in Hy; apply S2; auto; now left|].
          split; [|intros i j _ []]. intros i j [<-|Hi] Hj; apply SUB in Hj as [Hj Hlt].
          -- right; right. split; [|split; auto]; apply is_xpr_in; apply (i_sub _ _ _ _ _ _ I1); left; rewrite EX; [now left|now right].
          -- apply S2; auto. now right.
      + destruct (has _ _); [|discriminate]. injection E2 as <-. split; auto.
      + destruct (has _ _); [|discriminate]. injection E2 as <-. split; auto.
  Qed.

  Theorem in_order : forall ff l res ran msgs, process def_run expr_run ff false items d0 l = Some (res, ran, msgs) ->
    StronglySorted (earlier items) ran.
  Proof.
    intros ff l res ran msgs E. destruct (process_inv _ _ _ _ _ _ E) as (s & dn & sk & EA & I & T1 & T2 & T3 & T4 & -> & -> & ->).
    now apply (seq_run _ _ _ EA).
  Qed.

  Lemma succ_cases : forall j, j < length items -> succ j = Some true \/ succ j = Some false.
  Proof.
    intros j Hj. unfold succeeds. destruct (nth_error items j) as [it|] eqn:En.
    - destruct (it_type it); [destruct (expr_run _ _)|destruct (fst _)|destruct (fst _)]; auto.
    - apply nth_error_None in En. lia.
  Qed.

  Theorem fail_fast_seq : forall l res ran msgs, process def_run expr_run true false items d0 l = Some (res, ran, msgs) ->
    ~ In ACancel l -> forall i, i < length items -> In i ran <-> forall j, earlier items j i -> succ j = Some true.
  Proof.
    intros l res ran msgs E NC i Hi. destruct (one_kind _ _ Hi) as [Hd|Hx].
    - assert (EE : (forall j, earlier items j i -> succ j = Some true) <-> (forall j, is_def items j -> j < i -> succ j = Some true)).
      { split; intros H j.
        - intros Hj Hlt. apply H. left. split; auto. split; auto. now apply is_def_in.
        - intros [(H1 & H2 & H3)|[(H1 & H2)|(H1 & H2 & H3)]]; auto; exfalso; apply is_xpr_in in H2; eapply not_both; eauto. }
      rewrite EE. clear EE. split; [intros H; now apply (def_spec _ _ _ _ _ _ (proj1 (is_def_in _ _) Hd) E)|].
      intros HS. destruct (process_inv _ _ _ _ _ _ E) as (s & dn & sk & EA & I & T1 & T2 & T3 & T4 & -> & -> & ->).
      rewrite <- in_rev. rewrite (i_defs _ _ _ _ _ _ I), T1 in Hd. apply in_app_or in Hd as [Hd|Hd]; [now apply (i_done _ _ _ _ _ _ I)|].
      exfalso. cbn in Hd. destruct (i_skip _ _ _ _ _ _ I) as [_ ST]; [intros ->; destruct Hd|].
      apply stop_cases in ST. destruct ST as [_ [H|H]]; [apply NC; now apply (i_cancel _ _ _ _ _ _ I)|].
      apply (i_fail _ _ _ _ _ _ I) in H as (j & [Hj|Hj] & Hf).
      + pose proof defs_sorted as SS. rewrite (i_defs _ _ _ _ _ _ I), T1 in SS. pose proof (sorted_app _ _ SS j i Hj Hd).
        rewrite HS in Hf; [discriminate| |auto]. apply is_def_in. rewrite (i_defs _ _ _ _ _ _ I). apply in_or_app. auto.
      + apply (i_fin _ _ _ _ _ _ I) in Hj as (H1 & H2 & _). destruct (i_all _ _ _ _ _ _ I j H1 H2) as [_ ->]. destruct Hd.
    - assert (Hs : In (AStart i) l) by (rewrite started by eauto; now apply is_xpr_in).
      apply in_split in Hs as (l1 & l2 & ->). rewrite (start_spec _ _ _ _ _ _ _ E).
      destruct (process_inv _ _ _ _ _ _ E) as (s & dn & sk & EA & I & _). clear dn sk I.
      rewrite acts_app in EA. destruct (acts true false items (batch_init items d0) l1) as [s1|] eqn:E1; [|discriminate].
      cbn [Batch.acts] in EA. destruct (act true false items s1 (AStart i)) as [s2|] eqn:E2; [|discriminate].
      destruct (inv_run _ _ _ _ E1) as (dn1 & sk1 & I1). pose proof (seq_run _ _ _ E1) as (S1 & S2 & S3).
      cbn [Batch.act] in E2. destruct (b_todo_defs s1) eqn:ET; [|discriminate].
      destruct (has i (b_todo_exprs s1)) eqn:EK; [|discriminate]. apply has_in in EK. cbn [andb orb] in E2.
      destruct (b_todo_exprs s1) as [|k' r] eqn:EX; [discriminate|]. destruct (Nat.eqb_spec i k') as [<-|]; [|discriminate].
      destruct (b_running s1) eqn:EU, (b_reported s1) eqn:EV; try discriminate.
      split.
      + intros (H1 & H2 & H3) j [(A & B & C)|[(A & B)|(A & B & C)]]; auto. apply H3. apply (i_fin _ _ _ _ _ _ I1).
        apply is_xpr_in in A. split; auto. rewrite EU, EV. split; [|cbn; auto].
        destruct (i_x _ _ _ _ _ _ I1 j A) as [H|[H|[H|[H|H]]]]; try tauto.
        * exfalso. destruct H as [H _]. rewrite EX in H. pose proof (i_sorted _ _ _ _ _ _ I1) as IO. rewrite EX in IO. inversion IO; subst.
          rewrite Forall_forall in H6. destruct H as [->|H]; [lia|]. apply H6 in H. lia.
        * exfalso. destruct H as (_ & _ & _ & _ & ST & _). apply stop_cases in ST. destruct ST as [_ [H|H]].
          -- apply H1. now apply (i_cancel _ _ _ _ _ _ I1).
          -- apply (i_fail _ _ _ _ _ _ I1) in H as (j' & [Hj|Hj] & Hf).
             ++ rewrite H2 in Hf; [discriminate|]. apply is_def_in. rewrite (i_defs _ _ _ _ _ _ I1). apply in_or_app. auto.
             ++ rewrite H3 in Hf; [discriminate|auto].
      + intros H. split; [intros HC; apply NC; apply in_or_app; auto|]. split.
        * intros j Hj. apply H. right; left. split; auto. now apply is_xpr_in.
        * intros j Hj. apply H. apply S2; [|now left]. now apply (i_fin _ _ _ _ _ _ I1).
  Qed.

  (** ** Progress messages *)
  Theorem messages : forall ff par l res ran msgs, process def_run expr_run ff par items d0 l = Some (res, ran, msgs) ->
    length msgs = length ran /\ progress_ok D def_run expr_run items d0 (repeat Outstanding (length items)) msgs /\
    forall i, i < length items -> (In i ran -> nth_error (last msgs (repeat Outstanding (length items))) i = nth_error res i) /\
      (~ In i ran -> nth_error (last msgs (repeat Outstanding (length items))) i = Some Outstanding).
  Proof.
    intros ff par l res ran msgs E. destruct (outcomes _ _ _ _ _ _ E) as (_ & _ & HO).
    destruct (process_inv _ _ _ _ _ _ E) as (s & dn & sk & EA & I & T1 & T2 & T3 & T4 & -> & -> & ->).
    destruct I as [ID IS Id [L1 L2] IO IU IE IN IL IX IR [IV IW] IC IF II IA [IM1 [IM2 IM3]] IT].
    split; [rewrite !rev_length; rewrite T3 in IM3; cbn in IM3; lia|]. split; [exact IM1|].
    unfold init_out in IM2. rewrite IM2. intros i Hi. destruct (HO i) as [H1 _]. split.
    - intros Hr. destruct (H1 Hr) as (o & Ho & Hown). rewrite Ho. rewrite <- in_rev in Hr.
      assert (U : forall o', own i o' -> o' = o).
      { intros o' H. destruct H as [[A ->]|[A ->]], Hown as [[B ->]|[B ->]]; congruence. }
      destruct (IR i Hr) as [Hd|Hx].
      + destruct (IN i Hd) as (_ & o' & A & _ & B). rewrite B. f_equal. auto.
      + specialize (IX i Hx). unfold J in IX. rewrite T2, T3, T4 in IX. cbn in IX.
        destruct IX as [?|[?|[?|[(_ & _ & _ & _ & o' & A & _ & B)|(_ & _ & _ & H & _)]]]]; try tauto. rewrite B. f_equal. auto.
    - rewrite <- in_rev. intros Hr. destruct (one_kind _ _ Hi) as [Hd|Hx].
      + rewrite ID in Hd. apply in_app_or in Hd as [Hd|Hd]; [destruct (IN i Hd); tauto|]. apply (IL i Hd).
      + specialize (IX i Hx). unfold J in IX. rewrite T2, T3, T4 in IX. cbn in IX.
        destruct IX as [?|[?|[?|[?|(_ & _ & _ & _ & _ & H & _)]]]]; tauto.
  Qed.

  (** ** A run can always be completed *)
  Definition weight (s : bstate D) : nat :=
    length (b_todo_defs s) + 3 * length (b_todo_exprs s) + 2 * length (b_running s) + length (b_reported s).

  Lemma drop_shorter : forall i l, In i l -> length (drop i l) < length l.
  Proof.
    intros i l. unfold drop. induction l as [|x l IH]; intros H; [destruct H|]. cbn.
    assert (LE : length (filter (fun j => negb (Nat.eqb i j)) l) <= length l).
    { clear. induction l as [|y l IH]; cbn; auto. destruct (negb _); cbn; lia. }
    destruct (Nat.eqb_spec i x) as [->|Hn]; cbn; [lia|]. destruct H as [->|H]; [congruence|]. specialize (IH H). lia.
  Qed.

  Lemma can_step : forall ff par s, finished s = false -> exists a s', a <> ACancel /\ act ff par items s a = Some s' /\ weight s' < weight s.
  Proof.
    intros ff par s EF. unfold finished in EF.
    destruct (b_todo_defs s) as [|i r] eqn:ED.
    2:{ exists ADef. cbn [Batch.act]. rewrite ED. destruct (stop ff s).
        - eexists. split; [discriminate|]. split; [reflexivity|]. unfold weight. rewrite ED. cbn. lia.
        - destruct (def_run _ _). eexists. split; [discriminate|]. split; [reflexivity|]. unfold weight. rewrite ED. cbn. lia. }
    destruct (b_reported s) as [|i r] eqn:ER.
    2:{ exists (AFinish i). cbn [Batch.act]. rewrite (proj2 (has_in i (b_reported s))) by (rewrite ER; now left).
        eexists. split; [discriminate|]. split; [reflexivity|]. unfold weight. cbn [b_todo_defs b_todo_exprs b_running b_reported].
        pose proof (drop_shorter i (b_reported s)) as X. rewrite ER in *. specialize (X (or_introl eq_refl)). lia. }
    destruct (b_running s) as [|i r] eqn:EU.
    2:{ exists (AReport i). cbn [Batch.act]. rewrite (proj2 (has_in i (b_running s))) by (rewrite EU; now left).
        eexists. split; [discriminate|]. split; [reflexivity|]. unfold weight. cbn [b_todo_defs b_todo_exprs b_running b_reported].
        pose proof (drop_shorter i (b_running s)) as X. rewrite EU in *. specialize (X (or_introl eq_refl)). cbn [length] in *. lia. }
    destruct (b_todo_exprs s) as [|i r] eqn:EX; [discriminate|].
    exists (AStart i). cbn [Batch.act]. rewrite ED, EX, EU, ER. cbn [has existsb]. rewrite Nat.eqb_refl. cbn [orb andb].
    replace (par || true) with true by now destruct par.
    pose proof (drop_shorter i (i :: r) (or_introl eq_refl)) as X.
    destruct (stop ff s); eexists; (split; [discriminate|]); (split; [reflexivity|]); unfold weight;
      cbn [b_todo_defs b_todo_exprs b_running b_reported]; rewrite ?ED, ?EX, ?EU, ?ER; cbn [length] in *; lia.
  Qed.

  Theorem completes : forall ff par l s, acts ff par items (batch_init items d0) l = Some s ->
    exists l' r, ~ In ACancel l' /\ process def_run expr_run ff par items d0 (l ++ l') = Some r.
  Proof.
    intros ff par l s E.
    assert (G : forall n s, weight s <= n -> exists l' s', ~ In ACancel l' /\ acts ff par items s l' = Some s' /\ finished s' = true).
    { clear. induction n as [|n IH]; intros s Hw.
      - destruct (finished s) eqn:EF; [exists [], s; auto|]. destruct (can_step ff par s EF) as (a & s' & _ & _ & H). lia.
      - destruct (finished s) eqn:EF; [exists [], s; auto|]. destruct (can_step ff par s EF) as (a & s' & Ha & HA & H).
        destruct (IH s') as (l' & s2 & N2 & A2 & F2); [lia|]. exists (a :: l'), s2. split; [intros [H0|H0]; auto|].
        split; auto. cbn. now rewrite HA. }
    destruct (G _ s (le_n _)) as (l' & s' & N & A & F). exists l'. unfold process. rewrite acts_app, E, A, F. eauto.
  Qed.
End Batch.

Lemma defs_below_spec : forall items i, i <= length items ->
  defs_below items i = length (filter (fun j => negb (isx items j)) (seq 0 i)).
Proof.
  intros items i. unfold defs_below. induction i as [|i IH]; intros H; [reflexivity|].
  rewrite seq_S, filter_app, app_length, <- IH by lia. cbn [plus filter].
  assert (E : nth_error items i = Some (code_of items i)) by (unfold code_of; apply nth_error_nth'; lia).
  assert (F : firstn (S i) items = firstn i items ++ [code_of items i]).
  { clear - E. revert E. generalize (code_of items i). intros y. revert i.
    induction items as [|x l IH]; intros [|i] E; try discriminate.
    - injection E as ->. reflexivity.
    - cbn in E |- *. f_equal. now apply IH. }
  rewrite F, filter_app, app_length. f_equal.
  unfold isx, is_expr. cbn [filter]. destruct (it_type (code_of items i)); reflexivity.
Qed.

Lemma def_exact : forall D def_run expr_run items (d0 : D) par l res ran msgs i, is_def items i ->
  process def_run expr_run true par items d0 l = Some (res, ran, msgs) ->
  In i ran <-> (forall j, is_def items j -> j < i -> succeeds D def_run expr_run items d0 j = Some true) /\
    exists l1 l2, l = l1 ++ ADef :: l2 /\ ~ In ACancel l1 /\ length (filter is_adef l1) = defs_below items i.
Proof.
  intros. rewrite defs_below_spec; [now apply (def_spec _ _ _ _ _ par _ res _ msgs)|].
  destruct H as (it & H & _). assert (i < length items) by (apply nth_error_Some; congruence). lia.
Qed.
