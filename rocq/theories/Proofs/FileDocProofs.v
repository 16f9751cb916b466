(** Trimming and comment lines. *)
From Coq Require Import String List ZArith NArith Bool Arith Lia.
From Verif Require Import Model.Base Model.Parse Model.File Spec.ParseSpec Spec.FileSpec Proofs.FileSplitProofs.
Import ListNotations.

Section Doc.
  Variable k : lang.
  Hypothesis K : sane k.

  Lemma trim_start_split : forall s, exists a, s = a ++ trim_start k s /\ all_white k a /\ (forall c u, trim_start k s = c :: u -> white k c = false).
  Proof.
    induction s as [|c s (a & E & W & H)]; cbn [trim_start].
    - exists []. repeat split; [apply all_white_nil|discriminate].
    - destruct (white k c) eqn:Wc.
      + exists (c :: a). cbn. split; [now f_equal|]. split; auto. intros x [<-|A]; auto.
      + exists []. split; [reflexivity|]. split; [apply all_white_nil|]. intros x u A. now injection A as <- _.
  Qed.
  Lemma trim_start_white : forall a s, all_white k a -> trim_start k (a ++ s) = trim_start k s.
  Proof.
    induction a as [|c a IH]; intros s W; [reflexivity|]. cbn [app trim_start]. rewrite (W c) by now left. apply IH. intros x A. apply W. now right.
  Qed.
  Lemma trim_start_id : forall s, (forall c u, s = c :: u -> white k c = false) -> trim_start k s = s.
  Proof. intros [|c s] H; [reflexivity|]. cbn. now rewrite (H c s). Qed.
  Lemma trim_start_nil : forall s, trim_start k s = [] <-> all_white k s.
  Proof.
    intro s. split; intro H.
    - destruct (trim_start_split s) as (a & E & W & _). rewrite H, app_nil_r in E. now subst.
    - rewrite <- (app_nil_r s). now rewrite trim_start_white.
  Qed.
  Lemma all_white_rev : forall s, all_white k s -> all_white k (rev s).
  Proof. intros s W c A. apply W. now apply in_rev. Qed.

  Lemma rev_cases : forall (s : str), s = [] \/ exists u c, s = u ++ [c].
  Proof. intro s. destruct (rev s) as [|c u] eqn:E; [left|right]; apply (f_equal (@rev _)) in E; rewrite rev_involutive in E; cbn in E; eauto. Qed.

  Lemma trim_trims : forall s, exists a z, s = a ++ trim k s ++ z /\ all_white k a /\ all_white k z /\ a ++ trim_start k s = s /\
    (forall c u, trim k s = c :: u -> white k c = false) /\ (forall c u, trim k s = u ++ [c] -> white k c = false).
  Proof.
    intro s. destruct (trim_start_split s) as (a & E & W & H). unfold trim. set (t := trim_start k s) in *.
    destruct (trim_start_split (rev t)) as (z & E2 & W2 & H2). set (r := trim_start k (rev t)) in *.
    assert (Et : t = rev r ++ rev z). { rewrite <- rev_app_distr, <- E2. now rewrite rev_involutive. }
    exists a, (rev z). split; [rewrite <- Et; exact E|]. split; auto. split; [now apply all_white_rev|]. split; [now symmetry|]. split.
    - intros c u A. apply (H c (u ++ rev z)). rewrite Et, A. reflexivity.
    - intros c u A. apply (H2 c (rev u)). apply (f_equal (@rev _)) in A. rewrite rev_involutive, rev_app_distr in A. exact A.
  Qed.

  Lemma trim_white_r : forall s w, all_white k w -> trim k (s ++ w) = trim k s.
  Proof.
    intros s w W. unfold trim. destruct (trim_start_split s) as (a & E & Wa & H). set (t := trim_start k s) in *.
    rewrite E, <- app_assoc, trim_start_white by auto. destruct t as [|c t].
    - cbn [app]. replace (trim_start k w) with (@nil N) by (symmetry; now apply trim_start_nil). reflexivity.
    - rewrite (trim_start_id ((c :: t) ++ w)).
      + rewrite rev_app_distr, trim_start_white by now apply all_white_rev. reflexivity.
      + intros x u A. injection A as <- _. now apply (H c t).
  Qed.
  Lemma trim_white_l : forall s w, all_white k w -> trim k (w ++ s) = trim k s.
  Proof. intros s w W. unfold trim. now rewrite trim_start_white. Qed.
  Lemma trim_of : forall t s, trimmed k t s -> trim k s = t.
  Proof.
    intros t s (a & z & -> & Wa & Wz & _ & H1 & H2). rewrite trim_white_l, trim_white_r by auto. unfold trim. rewrite (trim_start_id t) by auto.
    rewrite (trim_start_id (rev t)); [apply rev_involutive|]. intros c u A. apply (H2 c (rev u)). apply (f_equal (@rev _)) in A. rewrite rev_involutive in A. exact A.
  Qed.
  Lemma trimmed_trim : forall s, trimmed k (trim k s) s.
  Proof.
    intro s. destruct (trim_trims s) as (a & z & E & Wa & Wz & _ & H1 & H2). destruct (trim k s) as [|c t] eqn:Et.
    - exists [], s. split; [reflexivity|]. split; [apply all_white_nil|]. split; [rewrite E; cbn; now apply all_white_app|]. repeat split; try (intros; discriminate).
      intros c u A. destruct u; discriminate.
    - exists a, z. split; [exact E|]. repeat split; auto. discriminate.
  Qed.
  (** where the trimmed text begins *)
  Lemma trims_at : forall s, blank k s = false -> exists a, trims k a (trim k s) s /\ a ++ trim_start k s = s.
  Proof.
    intros s B. destruct (trim_trims s) as (a & z & E & Wa & Wz & A & H1 & H2). exists a. split; auto. exists z. repeat split; auto.
    intro Q. exfalso. rewrite Q in E. cbn in E. assert (W : all_white k s) by (rewrite E; now apply all_white_app). apply blank_white in W. congruence.
  Qed.
  Lemma trims_blank : forall s, blank k s = true -> trims k [] [] s /\ trim k s = [].
  Proof.
    intros s B. apply blank_white in B. split.
    - exists s. repeat split; auto; try apply all_white_nil; try (intros; discriminate). intros c u A. destruct u; discriminate.
    - unfold trim. now rewrite (proj2 (trim_start_nil s) B).
  Qed.

  (** The first line of a text. *)
  Lemma first_line : forall l e ls l' e',
    lines_ok ((l, e) :: ls) -> unchop ((l, e) :: ls) = l' ++ e' -> ~ In nl l' -> line_over e' -> trim k l' = trim k l.
  Proof.
    intros l e ls l' e' O E N' L'.
    assert (Hn : ~ In nl l) by (inversion O; auto).
    change (unchop ((l, e) :: ls)) with ((l ++ e) ++ unchop ls) in E. rewrite <- app_assoc in E.
    destruct (app_two _ _ _ _ _ E) as [(x & -> & E2)|(x & -> & E2)].
    - (* l' is longer *)
      apply trim_white_r. inversion O as [|l0 Hl _|l0 e0 ls0 _ He _]; subst.
      + cbn in E2. symmetry in E2. apply app_eq_nil in E2 as [-> _]. apply all_white_nil.
      + destruct He as [[-> _]| ->].
        * destruct x as [|c x]; [apply all_white_nil|]. injection E2 as <- _. exfalso. apply N'. apply in_app_iff. right. now left.
        * destruct x as [|c x]; [apply all_white_nil|]. injection E2 as <- E2. destruct x as [|c x].
          -- intros y [<-|[]]. now apply white_cr.
          -- injection E2 as <- _. exfalso. apply N'. apply in_app_iff. right. right. now left.
    - (* l is longer *)
      destruct x as [|c x]; [now rewrite app_nil_r|]. exfalso. destruct L' as [->|[(s & ->)|(s & ->)]].
      + discriminate.
      + injection E2 as <- _. apply Hn. apply in_app_iff. right. now left.
      + injection E2 as <- E2. destruct x as [|c x].
        * cbn in E2. inversion O as [|l0 Hl _|l0 e0 ls0 _ He _]; subst; [discriminate|]. destruct He as [[-> He]| ->]; [now apply (He l')|discriminate].
        * injection E2 as <- _. apply Hn. apply in_app_iff. right. right. now left.
  Qed.

  Lemma doc_go_ok : forall ls, lines_ok ls -> forall e0 ds t, doc_go k (e0 ++ unchop ls) ls = (ds, t) ->
    exists pre rest e, unchop ls = pre ++ rest /\ comments k pre ds rest /\
      (pre = [] /\ t = e0 ++ rest \/ pre <> [] /\ last_end pre e rest /\ t = e ++ rest).
  Proof.
    induction ls as [|[l e] ls IH]; intros O e0 ds t H.
    - cbn in H. injection H as <- <-. exists [], [], []. split; [reflexivity|]. split; [|auto].
      constructor. intros l e d A _ _ (a & z & B & _). destruct l; [|discriminate]. destruct a; discriminate.
    - cbn [doc_go] in H.
      assert (NC : forall d, trim k l <> 35%N :: d -> (ds, t) = ([], e0 ++ unchop ((l, e) :: ls)) -> True) by auto. clear NC.
      assert (Stop : (forall d, trim k l <> 35%N :: d) -> (ds, t) = ([], e0 ++ unchop ((l, e) :: ls)) ->
        exists pre rest e1, unchop ((l, e) :: ls) = pre ++ rest /\ comments k pre ds rest /\
          (pre = [] /\ t = e0 ++ rest \/ pre <> [] /\ last_end pre e1 rest /\ t = e1 ++ rest)).
      { intros Nc E. injection E as -> ->. exists [], (unchop ((l, e) :: ls)), []. split; [reflexivity|]. split; [|auto].
        constructor. intros l' e' d A Hl' He' T. apply trim_of in T. rewrite (first_line _ _ _ _ _ O A Hl' He') in T. now apply (Nc d). }
      destruct (trim k l) as [|c d] eqn:Et; [apply Stop; [discriminate|auto]|].
      destruct (N.eqb_spec c 35) as [->|Hc]; [|apply Stop; [intros d' A; congruence|auto]]. clear Stop.
      destruct (doc_go k (e ++ unchop ls) ls) as [ds1 t1] eqn:Eg. injection H as <- <-.
      assert (O' : lines_ok ls) by (inversion O; [constructor|auto]).
      destruct (IH O' _ _ _ Eg) as (pre & rest & e1 & U & C & T).
      assert (He : e = [nl] /\ (forall l', l <> l' ++ [cr]) \/ e = [cr; nl] \/ e = [] /\ ls = []) by (inversion O; subst; tauto).
      assert (Ee : e = [nl] \/ e = [cr; nl] \/ e = [] /\ pre = [] /\ rest = []).
      { destruct He as [[-> _]|[->|[-> ->]]]; auto. right. right. cbn in U. symmetry in U. apply app_eq_nil in U. tauto. }
      exists (l ++ e ++ pre), rest, (if pre then e else e1). split; [|split].
      + change (unchop ((l, e) :: ls)) with ((l ++ e) ++ unchop ls). rewrite U. now rewrite <- !app_assoc.
      + apply comments_line with (d := d); auto.
        * inversion O; auto.
        * rewrite <- Et. apply trimmed_trim.
        * apply trimmed_trim.
      + right. split.
        { intro A. apply app_eq_nil in A as [-> _]. discriminate. }
        destruct T as [[-> ->]|(Np & L & ->)].
        * split; [|reflexivity]. right. exists l. rewrite app_nil_r. split; [reflexivity|].
          destruct He as [He|[He|[-> ->]]]; auto.
        * destruct pre as [|p pre]; [congruence|]. split; [|reflexivity].
          destruct L as [[A _]|(p' & A & L)]; [discriminate|]. right. exists (l ++ e ++ p'). rewrite <- !app_assoc, <- A. split; [reflexivity|].
          destruct L as [[-> L]|[->|[-> ->]]]; auto. left. split; auto. intros s Q.
          destruct (rev_cases p') as [->|(u & c' & ->)].
          -- cbn in A. injection A as -> ->. (* a comment line is not empty *)
             inversion C as [|l0 e2 d0 d1 pre0 ds0 rest0 N0 T0 T1 E0 C0 Q1 Q2 Q3]. destruct l0 as [|y l0].
             ++ apply trim_of in T0. discriminate T0.
             ++ injection Q1 as -> _. apply N0. now left.
          -- rewrite !app_assoc in Q. apply app_inj_tail in Q as [_ ->]. now apply (L u).
  Qed.

  Theorem doc_comment_ok : forall s d t, doc_comment k s = (d, t) ->
    exists pre ds rest e, s = pre ++ rest /\ comments k pre ds rest /\ last_end pre e rest /\ t = e ++ rest /\ d = join ds.
  Proof.
    intros s d t H. unfold doc_comment in H. destruct (chop_ok s) as [O U]. destruct (doc_go k s (chop s)) as [ds t'] eqn:E. injection H as <- <-.
    rewrite <- U in E at 1. destruct (doc_go_ok _ O [] ds t' E) as (pre & rest & e & A & C & T). rewrite U in A.
    destruct T as [[-> ->]|(Np & L & ->)].
    - exists [], ds, rest, []. repeat split; auto. left. auto.
    - exists pre, ds, rest, e. repeat split; auto.
  Qed.

  Lemma join_flat : forall d ds, join (d :: ds) ++ [nl] = flat_map (fun l => l ++ [nl]) (d :: ds).
  Proof.
    intros d ds. revert d. induction ds as [|x ds IH]; intro d.
    - cbn. now rewrite app_nil_r.
    - change (join (d :: x :: ds)) with (d ++ nl :: join (x :: ds)). cbn [flat_map] in IH |- *. rewrite <- IH.
      rewrite <- app_assoc. cbn [app]. rewrite <- app_assoc. reflexivity.
  Qed.
  Lemma some_doc_ok : forall ds, help ds (some_doc (join ds)).
  Proof.
    intros [|d ds]; [reflexivity|]. destruct d as [|c d], ds as [|x ds]; cbn [help]; try reflexivity.
    all: match goal with |- exists y, some_doc ?j = _ /\ _ => exists j; split; [reflexivity|apply join_flat] end.
  Qed.
  Lemma last_end_white : forall pre e rest, last_end pre e rest -> all_white k e.
  Proof.
    intros pre e rest [[_ ->]|(p & _ & [[-> _]|[->|[-> _]]])]; try apply all_white_nil; apply ending_white; unfold ending; auto.
  Qed.
End Doc.
