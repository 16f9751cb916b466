(** Proofs for C82. *)
From Coq Require Import List Arith Bool NArith Sorted Lia.
From Verif Require Import Model.Base Model.FsMap Model.Batch Model.CommandLine Spec.BatchSpec Spec.CommandLineSpec Proofs.FsMapProofs Proofs.BatchProofs.
Import ListNotations.

Notation le := (fun a b => path_cmp a b <> Gt).
Notation lt := (fun a b => path_cmp a b = Lt).

Lemma path_refl : forall p, path_cmp p p = Eq. Proof. intros p. now apply path_cmp_eq. Qed.
Lemma le_trans : forall a b c, path_cmp a b <> Gt -> path_cmp b c <> Gt -> path_cmp a c <> Gt.
Proof.
  intros a b c H H'. destruct (path_cmp a b) eqn:E; [|destruct (path_cmp b c) eqn:E'|congruence].
  - apply path_cmp_eq in E. now subst.
  - apply path_cmp_eq in E'. subst. congruence.
  - rewrite (path_lt_trans _ _ _ E E'). discriminate.
  - congruence.
Qed.

Lemma insert_in : forall p l x, In x (insert_path p l) <-> x = p \/ In x l.
Proof.
  induction l as [|q l IH]; cbn; intros x; [intuition congruence|].
  destruct (path_cmp p q); cbn; rewrite ?IH; intuition congruence.
Qed.
Lemma insert_sorted : forall p l, StronglySorted le l -> StronglySorted le (insert_path p l).
Proof.
  induction l as [|q l IH]; cbn; intros H; [repeat constructor|].
  inversion H as [|? ? H1 H2]; subst. destruct (path_cmp p q) eqn:E.
  - constructor; [exact H|]. constructor; [congruence|]. eapply Forall_impl; [|exact H2]. intros a X. eapply le_trans; [|exact X]. congruence.
  - constructor; [exact H|]. constructor; [congruence|]. eapply Forall_impl; [|exact H2]. intros a X. eapply le_trans; [|exact X]. congruence.
  - constructor; [auto|]. apply Forall_forall. intros x I. apply insert_in in I. destruct I as [->|I].
    + rewrite path_cmp_antisym, E. discriminate.
    + rewrite Forall_forall in H2. auto.
Qed.
Lemma sort_in : forall l x, In x (sort_paths l) <-> In x l.
Proof. induction l as [|p l IH]; cbn; intros x; [tauto|]. rewrite insert_in, IH. intuition congruence. Qed.
Lemma sort_sorted : forall l, StronglySorted le (sort_paths l).
Proof. induction l; cbn; [constructor|]. now apply insert_sorted. Qed.

Lemma dedup_from_in : forall l p x, In x (p :: dedup_from p l) <-> In x (p :: l).
Proof.
  induction l as [|q l IH]; intros p x; [reflexivity|]. cbn [dedup_from].
  destruct (path_cmp q p) eqn:E.
  - apply path_cmp_eq in E. subst. rewrite IH. cbn. tauto.
  - specialize (IH q x). cbn in *. tauto.
  - specialize (IH q x). cbn in *. tauto.
Qed.
Lemma dedup_from_sorted : forall l p, StronglySorted le (p :: l) -> StronglySorted lt (p :: dedup_from p l).
Proof.
  induction l as [|q l IH]; intros p H; [repeat constructor|]. cbn [dedup_from].
  inversion H as [|? ? H1 H2]; subst. inversion H2 as [|? ? H3 H4]; subst.
  assert (X : path_cmp q p = Eq \/ path_cmp p q = Lt /\ path_cmp q p = Gt).
  { rewrite (path_cmp_antisym p q). destruct (path_cmp p q); cbn; auto. congruence. }
  destruct X as [E|[E E']].
  - rewrite E. apply path_cmp_eq in E. subst. auto.
  - rewrite E'. pose proof (IH q H1) as S'. constructor; [exact S'|]. inversion S' as [|? ? _ F]; subst.
    constructor; [exact E|]. eapply Forall_impl; [|exact F]. intros a. now apply path_lt_trans.
Qed.
Lemma dedup_in : forall l x, In x (dedup_paths l) <-> In x l.
Proof. destruct l; intros x; [reflexivity|]. apply dedup_from_in. Qed.
Lemma dedup_sorted : forall l, StronglySorted le l -> StronglySorted lt (dedup_paths l).
Proof. destruct l; intros H; [constructor|]. now apply dedup_from_sorted. Qed.

Lemma sorted_unique : forall a b, StronglySorted lt a -> StronglySorted lt b -> (forall x, In x a <-> In x b) -> a = b.
Proof.
  induction a as [|p a IH]; intros [|q b] Ha Hb E.
  - reflexivity.
  - destruct (proj2 (E q) (or_introl eq_refl)).
  - destruct (proj1 (E p) (or_introl eq_refl)).
  - inversion Ha as [|? ? Ha1 Ha2]; subst. inversion Hb as [|? ? Hb1 Hb2]; subst. rewrite Forall_forall in Ha2, Hb2.
    assert (p = q).
    { destruct (proj1 (E p) (or_introl eq_refl)) as [|I1]; [auto|]. destruct (proj2 (E q) (or_introl eq_refl)) as [|I2]; [auto|].
      apply Ha2 in I2. apply Hb2 in I1. rewrite path_cmp_antisym, I1 in I2. discriminate. }
    subst q. f_equal. apply IH; auto. intros x. specialize (E x). cbn in E. split; intros I.
    + destruct (proj1 E (or_intror I)) as [<-|]; [|auto]. apply Ha2 in I. rewrite path_refl in I. discriminate.
    + destruct (proj2 E (or_intror I)) as [<-|]; [|auto]. apply Hb2 in I. rewrite path_refl in I. discriminate.
Qed.

Section P.
  Variable D : Type.
  Variable glob : str -> option (list path).
  Variable load : path -> D -> option D.
  Variable read : path -> option batch.
  Variable def_run : item -> D -> bool * D.
  Variable expr_run : item -> D -> bool.
  Variable start : D.

  Lemma matches_some : forall vs ps, matches glob vs = Some ps ->
    (forall v, In v vs -> ~ bad glob v) /\ forall p, In p ps <-> exists v l, In v vs /\ glob v = Some l /\ In p l.
  Proof.
    induction vs as [|v vs IH]; cbn; intros ps H.
    - injection H as <-. split; [tauto|]. intros p. split; [intros []|]. intros (v & l & [] & _).
    - destruct (glob v) as [[|q l]|] eqn:G; try discriminate. destruct (matches glob vs) as [qs|]; [|discriminate].
      injection H as <-. destruct (IH _ eq_refl) as [B M]. split.
      + intros w [<-|I]; [|auto]. unfold bad. rewrite G. intros [X|X]; discriminate.
      + intros p. change (q :: l ++ qs) with ((q :: l) ++ qs). rewrite in_app_iff, M. split.
        * intros [I|(w & m & I & J & K)]; [exists v, (q :: l); auto|exists w, m; auto].
        * intros (w & m & [<-|I] & J & K); [left; congruence|right; eauto].
  Qed.
  Lemma matches_none : forall vs, matches glob vs = None -> exists v, In v vs /\ bad glob v.
  Proof.
    induction vs as [|v vs IH]; cbn; intros H; [discriminate|].
    destruct (glob v) as [[|q l]|] eqn:G; [exists v; unfold bad; auto| |exists v; unfold bad; auto].
    destruct (matches glob vs); [discriminate|]. destruct (IH eq_refl) as (w & I & B). eauto.
  Qed.
  Lemma expand_some : forall vs ps, expand_globs glob vs = Some ps -> (forall v, In v vs -> ~ bad glob v) /\ named glob vs ps.
  Proof.
    unfold expand_globs. intros vs ps H. destruct (matches glob vs) as [qs|] eqn:E; [|discriminate]. injection H as <-.
    destruct (matches_some _ _ E) as [B M]. split; [exact B|]. split.
    - apply dedup_sorted, sort_sorted.
    - intros p. now rewrite dedup_in, sort_in.
  Qed.
  Lemma expand_none : forall vs, expand_globs glob vs = None -> exists v, In v vs /\ bad glob v.
  Proof. unfold expand_globs. intros vs H. destruct (matches glob vs) eqn:E; [discriminate|]. now apply matches_none. Qed.
  Lemma named_unique : forall vs a b, named glob vs a -> named glob vs b -> a = b.
  Proof. intros vs a b [S1 M1] [S2 M2]. apply sorted_unique; auto. intros x. now rewrite M1, M2. Qed.
  Lemma expand_nil : forall vs, expand_globs glob vs = Some [] -> vs = [].
  Proof.
    intros [|v vs] H; [reflexivity|]. apply expand_some in H. destruct H as [B [_ M]]. exfalso. apply (B v (or_introl eq_refl)).
    destruct (glob v) as [[|q l]|] eqn:G; unfold bad; auto. destruct (proj2 (M q)). exists v, (q :: l). cbn. auto.
  Qed.

  Lemma load_all_ok : forall ps d tr d', load_all load ps d = (tr, Some d') -> tr = map ELoad ps /\ loaded load ps d d'.
  Proof.
    induction ps as [|p ps IH]; cbn; intros d tr d' H.
    - injection H as <- <-. split; [reflexivity|constructor].
    - destruct (load p d) as [e|] eqn:E; [|discriminate]. destruct (load_all load ps e) as [t r] eqn:L. injection H as <- ->.
      destruct (IH _ _ _ L) as [-> X]. split; [reflexivity|]. econstructor; eauto.
  Qed.
  Lemma load_all_none : forall ps d tr, load_all load ps d = (tr, None) -> (forall d', ~ loaded load ps d d') /\ exists qs, tr = map ELoad qs.
  Proof.
    induction ps as [|p ps IH]; cbn; intros d tr H; [discriminate|].
    destruct (load p d) as [e|] eqn:E.
    - destruct (load_all load ps e) as [t r] eqn:L. injection H as <- ->. destruct (IH _ _ L) as [X [qs ->]]. split.
      + intros d' Y. inversion Y; subst. replace d'0 with e in * by congruence. eapply X; eauto.
      + exists (p :: qs). reflexivity.
    - injection H as <-. split; [|exists [p]; reflexivity]. intros d' Y. inversion Y; subst. congruence.
  Qed.
  Lemma read_all_ok : forall ps tr bs, read_all D read ps = (tr, Some bs) -> tr = map ERead ps /\ map Some bs = map read ps.
  Proof.
    induction ps as [|p ps IH]; cbn; intros tr bs H.
    - injection H as <- <-. auto.
    - destruct (read p) as [b|] eqn:E; [|discriminate]. destruct (read_all D read ps) as [t [cs|]] eqn:L; [|discriminate]. injection H as <- <-.
      destruct (IH _ _ eq_refl) as [-> X]. cbn. rewrite X. auto.
  Qed.
  Lemma read_all_none : forall ps tr, read_all D read ps = (tr, None) -> (exists p, In p ps /\ read p = None) /\ exists qs, tr = map ERead qs.
  Proof.
    induction ps as [|p ps IH]; cbn; intros tr H; [discriminate|].
    destruct (read p) as [b|] eqn:E.
    - destruct (read_all D read ps) as [t [cs|]] eqn:L; [discriminate|]. injection H as <-.
      destruct (IH _ eq_refl) as [(q & I & J) [qs ->]]. split; [eauto|]. exists (p :: qs). reflexivity.
    - injection H as <-. split; [eauto|]. exists [p]. reflexivity.
  Qed.

  Lemma runs_app : forall a b : list (event D), runs (a ++ b) = runs a ++ runs b. Proof. intros; apply flat_map_app. Qed.
  Lemma stdout_app : forall a b : list (event D), stdout (a ++ b) = stdout a ++ stdout b. Proof. intros; apply flat_map_app. Qed.
  Lemma stderr_app : forall a b : list (event D), stderr (a ++ b) = stderr a ++ stderr b. Proof. intros; apply flat_map_app. Qed.
  Lemma of_out : forall l, runs (D:=D) (map EOut l) = [] /\ stdout (D:=D) (map EOut l) = l /\ stderr (D:=D) (map EOut l) = [].
  Proof. induction l as [|x l (A & B & C)]; [repeat split; reflexivity|]. unfold runs, stdout, stderr in *. cbn. rewrite A, B, C. auto. Qed.
  Lemma of_err : forall l, runs (D:=D) (map EErr l) = [] /\ stdout (D:=D) (map EErr l) = [] /\ stderr (D:=D) (map EErr l) = l.
  Proof. induction l as [|x l (A & B & C)]; [repeat split; reflexivity|]. unfold runs, stdout, stderr in *. cbn. rewrite A, B, C. auto. Qed.
  Lemma of_load : forall l, runs (D:=D) (map ELoad l) = [] /\ stdout (D:=D) (map ELoad l) = [] /\ stderr (D:=D) (map ELoad l) = [].
  Proof. induction l as [|x l (A & B & C)]; [repeat split; reflexivity|]. unfold runs, stdout, stderr in *. cbn. auto. Qed.
  Lemma of_read : forall l, runs (D:=D) (map ERead l) = [] /\ stdout (D:=D) (map ERead l) = [] /\ stderr (D:=D) (map ERead l) = [].
  Proof. induction l as [|x l (A & B & C)]; [repeat split; reflexivity|]. unfold runs, stdout, stderr in *. cbn. auto. Qed.

  Lemma failed_in : forall outs, existsb is_failed outs = true <-> In Failed outs.
  Proof.
    intros outs. rewrite existsb_exists. split; [|eauto]. intros (x & I & E). destruct x; try discriminate. exact I.
  Qed.
  Lemma failed_not : forall outs, existsb is_failed outs = false <-> ~ In Failed outs.
  Proof. intros outs. rewrite <- failed_in. destruct (existsb is_failed outs); split; congruence. Qed.
  Lemma no_cancel : forall l, existsb (fun a => match a with ACancel => true | _ => false end) l = false <-> ~ In ACancel l.
  Proof.
    induction l as [|a l IH]; cbn; [tauto|]. destruct a; cbn; rewrite ?IH; split; intuition (try discriminate; congruence).
  Qed.
  Lemma report_reported : forall p b d ran outs, read p = Some b -> report b outs = reported (D:=D) read (p, d, ran, outs).
  Proof.
    intros p b d ran outs E. unfold report, reported. cbn [fst snd]. rewrite E. cbn. f_equal.
    induction (combine (bt_items b) outs) as [|[[l it] o] rows IH]; [reflexivity|]. cbn. destruct o; cbn; rewrite ?IH; reflexivity.
  Qed.

  Definition out_of (verbose : bool) (r : path * D * list nat * list outcome) : list line :=
    if verbose then announced read r ++ (if existsb is_failed (snd r) then [] else reported read r) else [].
  Definition err_of (r : path * D * list nat * list outcome) : list line :=
    if existsb is_failed (snd r) then reported read r else [].

  Lemma run_batch_spec : forall p b d v s tr ok, read p = Some b -> run_batch def_run expr_run p b d v s = Some (tr, ok) ->
    exists r, runs tr = [r] /\ is_run def_run expr_run read d p r /\ existsb is_failed (snd r) = negb ok /\
      stdout tr = out_of v r /\ stderr tr = err_of r.
  Proof.
    unfold run_batch. intros p b d v s tr ok E H.
    destruct (existsb _ s) eqn:C; [discriminate|]. apply no_cancel in C.
    destruct (process _ _ _ _ _ d s) as [[[outs ran] msgs]|] eqn:P; [|discriminate].
    exists (p, d, ran, outs). unfold out_of, err_of. cbn [snd].
    assert (R : is_run def_run expr_run read d p (p, d, ran, outs)) by (exists b, s, ran, outs, msgs; auto).
    rewrite <- (report_reported p b d ran outs E). unfold announced. cbn [fst snd]. rewrite E.
    destruct (of_out (report b outs)) as (O1 & O2 & O3). destruct (of_err (report b outs)) as (R1 & R2 & R3).
    destruct (existsb is_failed outs) eqn:F; [injection H as <- <-|destruct v; injection H as <- <-];
      unfold runs, stdout, stderr in *; try destruct v; cbn; rewrite ?flat_map_app; cbn; rewrite ?O1, ?O2, ?O3, ?R1, ?R2, ?R3, ?app_nil_r; repeat (split; [solve [auto | reflexivity]|]); auto.
  Qed.

  Lemma run_all_spec : forall fs bs d v ss tr ok, map Some bs = map read fs ->
    run_all def_run expr_run (combine fs bs) d v ss = Some (tr, ok) ->
    exists done rest, fs = done ++ rest /\ Forall2 (is_run def_run expr_run read d) done (runs tr) /\
      (ok = true /\ rest = [] /\ Forall (fun r => ~ failing r) (runs tr) \/
       ok = false /\ exists rs r, runs tr = rs ++ [r] /\ Forall (fun r => ~ failing r) rs /\ failing r) /\
      stdout tr = flat_map (out_of v) (runs tr) /\ stderr tr = flat_map err_of (runs tr).
  Proof.
    induction fs as [|p fs IH]; intros bs d v ss tr ok E H.
    - cbn in H. injection H as <- <-. exists [], []. split; [reflexivity|]. split; [constructor|]. split; [left; repeat split; constructor|split; reflexivity].
    - destruct bs as [|b bs]; [discriminate|]. cbn in E. injection E as E1 E2. symmetry in E1. cbn in H. destruct ss as [|s ss]; [discriminate|].
      destruct (run_batch _ _ p b d v s) as [[t [|]]|] eqn:B; [| |discriminate];
        destruct (run_batch_spec _ _ _ _ _ _ _ E1 B) as (r & R1 & R2 & R3 & R4 & R5).
      + destruct (run_all _ _ _ d v ss) as [[t' ok']|] eqn:A; [|discriminate]. injection H as <- <-.
        destruct (IH _ _ _ _ _ _ E2 A) as (done & rest & -> & F & K & O & X).
        exists (p :: done), rest. rewrite runs_app, stdout_app, stderr_app, R1, R4, R5, O, X. cbn [app flat_map].
        apply failed_not in R3.
        split; [reflexivity|]. split; [constructor; auto|]. split; [|split; reflexivity].
        destruct K as [(-> & -> & K)|(-> & rs & r' & K1 & K2 & K3)]; [left; auto|right].
        split; [reflexivity|]. exists (r :: rs), r'. rewrite K1. repeat split; auto.
      + injection H as <- <-. exists [p], fs. rewrite R1, R4, R5. cbn [app flat_map]. rewrite !app_nil_r. apply failed_in in R3.
        split; [reflexivity|]. split; [constructor; [auto|constructor]|]. split; [|split; reflexivity].
        right. split; [reflexivity|]. exists [], r. repeat split; auto.
  Qed.

  Notation values def := (match def with Some x => x | None => [] end).
  Lemma def_expand : forall def : option (list str), match def with Some x => expand_globs glob x | None => Some [] end = expand_globs glob (values def).
  Proof. intros [x|]; reflexivity. Qed.

  Lemma main_exit : forall quiet def files ss tr c,
    main glob load read def_run expr_run start quiet def files ss = Some (tr, Exit c) ->
    exists defs fs d done rest tr',
      named glob (values def) defs /\ named glob files fs /\ fs <> [] /\ loaded load defs start d /\
      tr = map ELoad defs ++ map ERead fs ++ tr' /\
      fs = done ++ rest /\ Forall2 (is_run def_run expr_run read d) done (runs tr') /\
      (c = 0 /\ rest = [] /\ Forall (fun r => ~ failing r) (runs tr') \/
       c = 1 /\ exists rs r, runs tr' = rs ++ [r] /\ Forall (fun r => ~ failing r) rs /\ failing r) /\
      stdout tr' = flat_map (out_of (negb quiet)) (runs tr') /\ stderr tr' = flat_map err_of (runs tr').
  Proof.
    unfold main. intros quiet def files ss tr c. rewrite def_expand. intros H.
    destruct (expand_globs glob (values def)) as [defs|] eqn:E1; [|discriminate].
    destruct (expand_globs glob files) as [[|f fs]|] eqn:E2; try discriminate.
    apply expand_some in E1. apply expand_some in E2. destruct E1 as [_ E1]. destruct E2 as [_ E2]. revert H E2. assert (NE : f :: fs <> []) by discriminate. revert NE. generalize (f :: fs) as l. clear f fs. intros fs NE H E2.
    unfold process_files in H. destruct (load_all load defs start) as [t1 [d|]] eqn:L; [|discriminate].
    destruct (read_all D read fs) as [t2 [bs|]] eqn:R; [|discriminate].
    destruct (run_all _ _ _ d _ ss) as [[t3 ok]|] eqn:A; [|discriminate]. injection H as <- <-.
    destruct (load_all_ok _ _ _ _ L) as [-> L']. destruct (read_all_ok _ _ _ R) as [-> R'].
    destruct (run_all_spec _ _ _ _ _ _ _ R' A) as (done & rest & X1 & X2 & X3 & X4 & X5).
    exists defs, fs, d, done, rest, t3. repeat (split; [solve [auto]|]). split; [|auto].
    destruct X3 as [(-> & X3)|(-> & X3)]; auto.
  Qed.

  Lemma main_runs : forall quiet def files ss tr c,
    main glob load read def_run expr_run start quiet def files ss = Some (tr, Exit c) ->
    exists defs fs d done rest tr',
      named glob (values def) defs /\ named glob files fs /\ loaded load defs start d /\
      tr = map ELoad defs ++ map ERead fs ++ tr' /\
      fs = done ++ rest /\ Forall2 (is_run def_run expr_run read d) done (runs tr') /\
      (c = 0 /\ rest = [] /\ Forall (fun r => ~ failing r) (runs tr') \/
       c = 1 /\ exists rs r, runs tr' = rs ++ [r] /\ Forall (fun r => ~ failing r) rs /\ failing r).
  Proof.
    intros quiet def files ss tr c H. destruct (main_exit _ _ _ _ _ _ H) as (defs & fs & d & done & rest & tr' & X1 & X2 & X3 & X4 & X5 & X6 & X7 & X8 & _).
    exists defs, fs, d, done, rest, tr'. auto 10.
  Qed.

  Lemma head_silent : forall defs fs (tr' : list (event D)),
    runs (map ELoad defs ++ map ERead fs ++ tr') = runs tr' /\
    stdout (map ELoad defs ++ map ERead fs ++ tr') = stdout tr' /\ stderr (map ELoad defs ++ map ERead fs ++ tr') = stderr tr'.
  Proof.
    intros defs fs tr'. rewrite !runs_app, !stdout_app, !stderr_app.
    destruct (of_load defs) as (-> & -> & ->). destruct (of_read fs) as (-> & -> & ->). auto.
  Qed.

  Lemma main_streams : forall quiet def files ss tr c,
    main glob load read def_run expr_run start quiet def files ss = Some (tr, Exit c) ->
    exists good bad, runs tr = good ++ bad /\ Forall (fun r => ~ failing r) good /\
      (c = 0 /\ bad = [] \/ c = 1 /\ exists r, bad = [r] /\ failing r) /\
      stdout tr = (if quiet then [] else flat_map (fun r => announced read r ++ reported read r) good ++ flat_map (announced read) bad) /\
      stderr tr = flat_map (reported read) bad.
  Proof.
    intros quiet def files ss tr c H. destruct (main_exit _ _ _ _ _ _ H) as (defs & fs & d & done & rest & tr' & _ & _ & _ & _ & -> & _ & _ & X8 & X9 & X10).
    destruct (head_silent defs fs tr') as (-> & -> & ->).
    assert (G : forall rs, Forall (fun r : path * D * list nat * list outcome => ~ failing r) rs ->
      flat_map (out_of (negb quiet)) rs = (if quiet then [] else flat_map (fun r => announced read r ++ reported read r) rs) /\ flat_map err_of rs = []).
    { induction rs as [|r rs IH]; intros F; [destruct quiet; auto|]. inversion F as [|? ? F1 F2]; subst. destruct (IH F2) as [IH1 IH2]. cbn.
      rewrite IH1, IH2. unfold failing in F1. apply failed_not in F1. unfold out_of, err_of. rewrite F1. destruct quiet; auto. }
    destruct X8 as [(-> & -> & F)|(-> & rs & r & E & F & K)].
    - exists (runs tr'), []. rewrite app_nil_r. destruct (G _ F) as [G1 G2]. rewrite X9, X10, G1, G2. cbn. rewrite app_nil_r.
      split; [reflexivity|]. split; [exact F|]. split; [auto|]. auto.
    - exists rs, [r]. destruct (G _ F) as [G1 G2]. rewrite X9, X10, E, !flat_map_app, G1, G2. cbn. rewrite !app_nil_r.
      split; [reflexivity|]. split; [exact F|]. split; [right; eauto|]. unfold failing in K. apply failed_in in K. unfold out_of, err_of. rewrite K.
      destruct quiet; cbn; rewrite ?app_nil_r; auto.
  Qed.

  Lemma all_success : forall items (d : D) ff par l outs ran msgs, ~ In ACancel l ->
    process def_run expr_run ff par items d l = Some (outs, ran, msgs) -> ~ In Failed outs ->
    outs = repeat Success (length items) /\ forall i, i < length items -> In i ran.
  Proof.
    intros items d ff par l outs ran msgs NC P NF.
    destruct (outcomes _ _ _ _ _ _ _ _ _ _ _ P) as (L & _ & O).
    assert (S1 : forall i, In i ran -> nth_error outs i = Some Success /\ succeeds D def_run expr_run items d i = Some true).
    { intros i Ii. destruct (proj1 (O i) Ii) as (o & E & [[E1 ->]|[_ ->]]); [auto|]. elim NF. eapply nth_error_In; eauto. }
    assert (A : forall i, i < length items -> In i ran).
    { intros i Li. destruct (process_inv _ _ _ _ _ _ _ _ _ _ _ P) as (s & dn & sk & _ & V & T1 & T2 & T3 & T4 & _ & E2 & _). subst ran.
      destruct V as [ID IS Id [L1 L2] IO IU IE IN IL IX IR [IV IW] IC IF II IA _ IT].
      assert (ST : stop ff s = false).
      { destruct (stop ff s) eqn:ST; [|reflexivity]. apply stop_cases in ST. destruct ST as [_ [C|C]]; [apply IC in C; contradiction|].
        apply IF in C. destruct C as (k & K & E). assert (Rk : In k (rev (b_ran s))).
        { rewrite <- in_rev. destruct K as [K|K]; [apply (IN k K)|apply II in K; tauto]. }
        apply S1 in Rk. destruct Rk as [_ Rk]. congruence. }
      assert (sk = []). { destruct sk; auto. destruct IS as [_ H]; [congruence|]. congruence. } subst sk.
      rewrite <- in_rev. destruct (one_kind _ _ Li) as [Hd|Hx].
      - rewrite ID, T1, !app_nil_r in Hd. now destruct (IN i Hd).
      - specialize (IX i Hx). unfold J in IX. rewrite T2, T3, T4, ST in IX. cbn in IX. intuition discriminate. }
    split; [|exact A].
    assert (G : forall n (o : list outcome), length o = n -> (forall i, i < n -> nth_error o i = Some Success) -> o = repeat Success n).
    { induction n as [|n IH]; intros [|x o] Lo H; cbn in *; try discriminate; [reflexivity|]. pose proof (H 0 (Nat.lt_0_succ n)) as H0. cbn in H0. injection H0 as ->.
      f_equal. apply IH; [lia|]. intros i Hi. apply (H (S i)). lia. }
    apply G; [exact L|]. intros i Hi. now apply S1, A.
  Qed.

  Lemma main_zero : forall quiet def files ss tr,
    main glob load read def_run expr_run start quiet def files ss = Some (tr, Exit 0) ->
    forall v l p, In v files -> glob v = Some l -> In p l ->
    exists b d ran, read p = Some b /\ In (p, d, ran, repeat Success (length (bt_items b))) (runs tr) /\ forall i, i < length (bt_items b) -> In i ran.
  Proof.
    intros quiet def files ss tr H v l p Iv Gv Ip.
    destruct (main_exit _ _ _ _ _ _ H) as (defs & fs & d & done & rest & tr' & _ & [_ X2] & _ & _ & -> & X6 & X7 & X8 & _).
    destruct (head_silent defs fs tr') as (-> & _ & _).
    destruct X8 as [(_ & -> & F)|(X & _)]; [|discriminate]. rewrite app_nil_r in X6. subst done.
    assert (Ifs : In p fs) by (apply X2; eauto). clear X2 H. induction X7 as [|q r fs' rs R X7 IH]; [destruct Ifs|].
    inversion F as [|? ? F1 F2]; subst. destruct Ifs as [->|Ifs].
    - destruct R as (b & s & ran & outs & msgs & -> & Rb & NC & P). unfold failing in F1. cbn in F1.
      destruct (all_success _ _ _ _ _ _ _ _ NC P F1) as [-> A]. rewrite map_length in *. exists b, d, ran. split; [exact Rb|]. split; [now left|exact A].
    - destruct (IH F2 Ifs) as (b & e & ran & Y1 & Y2 & Y3). exists b, e, ran. split; [exact Y1|]. split; [now right|exact Y3].
  Qed.

  Lemma panic_silent : forall quiet def files ss tr,
    main glob load read def_run expr_run start quiet def files ss = Some (tr, Panicked) -> runs tr = [] /\ stdout tr = [] /\ stderr tr = [].
  Proof.
    unfold main. intros quiet def files ss tr. rewrite def_expand. intros H.
    destruct (expand_globs glob (values def)) as [defs|]; [|injection H as <-; auto].
    destruct (expand_globs glob files) as [[|f fs]|]; [discriminate| |injection H as <-; auto].
    revert H. generalize (f :: fs) as l. clear f fs. intros fs H.
    unfold process_files in H. destruct (load_all load defs start) as [t1 [d|]] eqn:L.
    - destruct (read_all D read fs) as [t2 [bs|]] eqn:R.
      + destruct (run_all _ _ _ d _ ss) as [[t3 ok]|]; discriminate.
      + injection H as <-. destruct (load_all_ok _ _ _ _ L) as [-> _]. destruct (read_all_none _ _ R) as [_ [qs ->]].
        destruct (head_silent defs qs []) as (A & B & C). rewrite app_nil_r in A, B, C. auto.
    - injection H as <-. destruct (load_all_none _ _ _ L) as [_ [qs ->]]. apply of_load.
  Qed.

  Lemma loaded_fun : forall ps d a b, loaded load ps d a -> loaded load ps d b -> a = b.
  Proof. intros ps d a b H. revert b. induction H; intros b K; inversion K; subst; auto. apply IHloaded. congruence. Qed.

  (** How it ends does not depend on the threads, except whether the exit code is 0 or 1. *)
  Lemma expand_cases : forall vs, (exists v, In v vs /\ bad glob v) /\ expand_globs glob vs = None \/
    (forall v, In v vs -> ~ bad glob v) /\ exists ps, expand_globs glob vs = Some ps /\ named glob vs ps.
  Proof.
    intros vs. destruct (expand_globs glob vs) as [ps|] eqn:E; [right|left; split; [now apply expand_none|reflexivity]].
    destruct (expand_some _ _ E). eauto.
  Qed.

  Lemma panics : forall quiet def files ss r,
    main glob load read def_run expr_run start quiet def files ss = Some r ->
    (snd r = Panicked <->
     (exists v, In v (values def ++ files) /\ bad glob v) \/
     (files <> [] /\ exists defs fs, named glob (values def) defs /\ named glob files fs /\
        ((forall d, ~ loaded load defs start d) \/ exists p, In p fs /\ read p = None))).
  Proof.
    unfold main. intros quiet def files ss r. rewrite def_expand. intros H.
    destruct (expand_cases (values def)) as [[(v & I & B) E]|(N1 & defs & E1 & M1)].
    { rewrite E in H. injection H as <-. split; [intros _; left; exists v; split; [apply in_or_app; auto|exact B]|reflexivity]. }
    rewrite E1 in H. destruct (expand_cases files) as [[(v & I & B) E]|(N2 & fs & E2 & M2)].
    { rewrite E in H. injection H as <-. split; [intros _; left; exists v; split; [apply in_or_app; auto|exact B]|reflexivity]. }
    rewrite E2 in H.
    assert (N : ~ exists v, In v (values def ++ files) /\ bad glob v).
    { intros (v & I & B). apply in_app_or in I. destruct I as [I|I]; [exact (N1 _ I B)|exact (N2 _ I B)]. }
    destruct fs as [|f fs].
    { injection H as <-. split; [discriminate|]. intros [X|[X _]]; [contradiction|]. elim X. now apply expand_nil. }
    assert (NE : files <> []) by (intros ->; discriminate).
    revert H M2. generalize (f :: fs) as l. clear f fs E2. intros fs H M2.
    assert (U : forall a b, named glob (values def) a -> named glob files b -> a = defs /\ b = fs).
    { intros a b X Y. split; eapply named_unique; eauto. }
    unfold process_files in H. destruct (load_all load defs start) as [t1 [d|]] eqn:L.
    - destruct (load_all_ok _ _ _ _ L) as [_ L']. destruct (read_all D read fs) as [t2 [bs|]] eqn:R.
      + destruct (run_all _ _ _ d _ ss) as [[t3 ok]|]; [|discriminate]. injection H as <-. split; [discriminate|]. intros [X|(_ & a & b & X & Y & Z)]; [contradiction|].
        destruct (U _ _ X Y) as [-> ->]. destruct Z as [Z|(p & Ip & Z)]; [elim (Z _ L')|].
        destruct (read_all_ok _ _ _ R) as [_ R']. apply (in_map read) in Ip. rewrite <- R', Z in Ip. apply in_map_iff in Ip. destruct Ip as (x & W & _). discriminate.
      + injection H as <-. destruct (read_all_none _ _ R) as [X _]. split; [intros _|reflexivity]. right. split; [exact NE|]. exists defs, fs. auto.
    - injection H as <-. destruct (load_all_none _ _ _ L) as [X _]. split; [intros _|reflexivity]. right. split; [exact NE|]. exists defs, fs. auto.
  Qed.

  Lemma shell : forall quiet def files ss tr defs,
    main glob load read def_run expr_run start quiet def files ss = Some (tr, Shell defs) <->
    tr = [] /\ files = [] /\ (forall v, In v (values def) -> ~ bad glob v) /\ named glob (values def) defs.
  Proof.
    unfold main. intros quiet def files ss tr defs. rewrite def_expand.
    destruct (expand_cases (values def)) as [[(v & I & B) ->]|(N1 & defs' & -> & M1)].
    { split; [discriminate|]. intros (_ & _ & N & _). elim (N _ I B). }
    split.
    - intros H. destruct (expand_globs glob files) as [[|f fs]|] eqn:E; [|unfold process_files in H|discriminate].
      + injection H as <- <-. apply expand_nil in E. auto.
      + destruct (load_all load defs' start) as [t1 [d|]]; [|discriminate]. destruct (read_all D read (f :: fs)) as [t2 [bs|]]; [|discriminate].
        destruct (run_all _ _ _ d _ ss) as [[t3 ok]|]; discriminate.
    - intros (-> & -> & _ & M). cbn. now rewrite (named_unique _ _ _ M M1).
  Qed.

  Lemma matches_same : forall a b, incl a b -> incl b a -> expand_globs glob a = expand_globs glob b.
  Proof.
    intros a b I J. destruct (expand_cases a) as [[(v & K & B) ->]|(N & ps & -> & S1 & M1)]; destruct (expand_cases b) as [[(v' & K' & B') ->]|(N' & ps' & -> & S2 & M2)].
    - reflexivity.
    - elim (N' v (I _ K) B).
    - elim (N v' (J _ K') B').
    - f_equal. apply sorted_unique; auto. intros x. rewrite M1, M2. split; intros (v & l & X & Y); exists v, l; auto.
  Qed.
  Lemma arguments : forall quiet def def' files files' ss, incl def def' -> incl def' def -> incl files files' -> incl files' files ->
    main glob load read def_run expr_run start quiet (Some def) files ss = main glob load read def_run expr_run start quiet (Some def') files' ss.
  Proof. intros. unfold main. rewrite (matches_same def def'), (matches_same files files') by auto. reflexivity. Qed.

  Lemma run_all_completes : forall fb (d : D) v, exists ss r, run_all def_run expr_run fb d v ss = Some r.
  Proof.
    induction fb as [|[p b] fb IH]; intros d v; [exists [], ([], true); reflexivity|].
    destruct (completes D def_run expr_run (map snd (bt_items b)) d (bt_ff b) (bt_par b) [] _ eq_refl) as (l & [[outs ran] msgs] & NC & P).
    cbn [app] in P. destruct (IH d v) as (ss & [tr ok] & E). exists (l :: ss). cbn [run_all]. unfold run_batch.
    rewrite (proj2 (no_cancel l) NC), P, E. destruct (existsb is_failed outs); [|destruct v]; eauto.
  Qed.
  Lemma main_completes : forall quiet def files, exists ss r, main glob load read def_run expr_run start quiet def files ss = Some r.
  Proof.
    intros. unfold main. rewrite def_expand. destruct (expand_globs glob (values def)) as [defs|]; [|exists []; eauto].
    destruct (expand_globs glob files) as [[|f fs]|]; try (exists []; eauto; fail). unfold process_files.
    destruct (load_all load defs start) as [t1 [d|]]; [|exists []; eauto]. destruct (read_all D read (f :: fs)) as [t2 [bs|]]; [|exists []; eauto].
    destruct (run_all_completes (combine (f :: fs) bs) d (negb quiet)) as (ss & [t ok] & E). exists ss. rewrite E. eauto.
  Qed.
End P.
