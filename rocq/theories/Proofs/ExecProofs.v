(** Pipelines. *)
From Coq Require Import String List ZArith NArith Bool Lia Arith.
From Verif Require Import Model.Base Model.Value Model.Exec Model.Link Spec.ExecSpec Spec.NamedSpec
  Proofs.RegistryProofs Proofs.LinkProofs Proofs.ScopedProofs.
Import ListNotations.
Set Implicit Arguments.

Section Exec.
Variable W : Type.

Lemma evals_iff (l : list (step W)) : forall a b, evals l a b <-> runs l a b.
Proof.
  induction l as [|s l IH]; intros [w v e] [w' v' e']; unfold evals; cbn [eval at_value at_env at_world].
  - split; intro H.
    + injection H as <- <- <-. constructor.
    + inversion H; subst. reflexivity.
  - unfold bind. split.
    + destruct (invoke s v e w) as [w1 [[v1 e1]|n|]] eqn:E; try discriminate. cbn. intro H.
      apply runs_next with (At w1 v1 e1); [exact E|]. apply IH. exact H.
    + intro H. inversion H as [|? ? ? [w1 v1 e1] ? Hm Hr]; subst.
      unfold moves in Hm. cbn in Hm. rewrite Hm. cbn. apply IH in Hr. exact Hr.
Qed.

Lemma eval_stops_iff (l : list (step W)) : forall a w f, eval_stops l a w f <->
  exists l1 s l2 b, l = l1 ++ s :: l2 /\ runs l1 a b /\ stops s b w f.
Proof.
  induction l as [|s l IH]; intros [w0 v e] w f; unfold eval_stops; cbn [eval at_value at_env at_world].
  - split.
    + destruct f; discriminate.
    + intros (l1 & s & l2 & b & H & _). destruct l1; discriminate.
  - unfold bind. split.
    + destruct (invoke s v e w0) as [w1 [[v1 e1]|n|]] eqn:E.
      * cbn. intro H. apply (IH (At w1 v1 e1)) in H. destruct H as (l1 & s' & l2 & b & -> & Hr & Hs).
        exists (s :: l1), s', l2, b. repeat split; auto. apply runs_next with (At w1 v1 e1); auto.
      * intro H. exists [], s, l, (At w0 v e). repeat split; auto; [constructor|].
        unfold stops. cbn. rewrite E. exact H.
      * intro H. exists [], s, l, (At w0 v e). repeat split; auto; [constructor|].
        unfold stops. cbn. rewrite E. exact H.
    + intros ([|s1 l1] & s' & l2 & b & H & Hr & Hs); cbn in H; injection H as <- ->.
      * inversion Hr; subst. unfold stops in Hs. cbn in Hs. rewrite Hs. destruct f; reflexivity.
      * inversion Hr as [|? ? ? [w1 v1 e1] ? Hm Hr']; subst. unfold moves in Hm. cbn in Hm. rewrite Hm. cbn.
        apply (IH (At w1 v1 e1)). eauto 8.
Qed.

Lemma eval_app (l1 : list (step W)) : forall l2 v e w,
  eval (l1 ++ l2) v e w = bind (eval l1 v e) (fun p => eval l2 (fst p) (snd p)) w.
Proof.
  induction l1 as [|s l1 IH]; intros l2 v e w; cbn [app eval]; [reflexivity|].
  unfold bind. destruct (invoke s v e w) as [w1 [[v1 e1]|n|]]; auto. cbn. rewrite IH. reflexivity.
Qed.

Lemma runs_app (l1 l2 : list (step W)) a c : runs (l1 ++ l2) a c <-> exists b, runs l1 a b /\ runs l2 b c.
Proof.
  revert a. induction l1 as [|s l1 IH]; intros a; cbn [app].
  - split; [intro H; exists a; split; auto; constructor|]. intros (b & H & H'). inversion H; subst. auto.
  - split.
    + intro H. inversion H as [|? ? ? b ? Hm Hr]; subst. apply IH in Hr. destruct Hr as (x & H1 & H2).
      exists x. split; auto. econstructor; eauto.
    + intros (b & H & H'). inversion H as [|? ? ? y ? Hm Hr]; subst. econstructor; eauto. apply IH. eauto.
Qed.

(** ** Names that are not needed do not matter *)
Definition alike (o o' : option (meaning W)) : Prop :=
  match o, o' with Some d, Some d' => forall v w, d v w = d' v w | None, None => True | _, _ => False end.
Definition ext_on (N : str -> bool) (r r' : nscope W) : Prop := forall y, N y = true -> alike (r y) (r' y).
Definition ext (r r' : nscope W) : Prop := forall y, alike (r y) (r' y).

Lemma alike_refl o : alike o o.
Proof. destruct o; cbn; auto. Qed.

Lemma act_len ds (a : act W) : forall vals w w' p, act_means ds a vals w = (w', Ok p) -> length (snd p) = length vals.
Proof.
  induction a as [v|n| |i input k IH|i v k IH|f k IH]; intros vals w w' p; cbn [act_means]; try discriminate.
  - intro H. injection H as <- <-. reflexivity.
  - destruct (nth_error ds i); [|discriminate]. unfold bind. destruct (m vals input w) as [w1 [x|n|]]; try discriminate. apply IH.
  - destruct (Nat.ltb i (length vals)); [|discriminate]. intro H. apply IH in H. rewrite replace_length in H. exact H.
  - destruct (f w). apply IH.
Qed.
Lemma act_frame (ds ds' : list (list value -> meaning W)) (a : act W) : forall vals w,
  (forall i, match nth_error ds i, nth_error ds' i with
    | Some d, Some d' => forall vals' v w, length vals' = length vals -> d vals' v w = d' vals' v w
    | None, None => True | _, _ => False end) ->
  act_means ds a vals w = act_means ds' a vals w.
Proof.
  induction a as [v|n| |i input k IH|i v k IH|f k IH]; intros vals w H; cbn [act_means]; auto.
  - assert (Hi := H i). destruct (nth_error ds i) as [d|], (nth_error ds' i) as [d'|]; try easy. unfold bind.
    rewrite (Hi vals input w eq_refl). destruct (d' vals input w) as [w' [x|n|]]; auto.
  - destruct (Nat.ltb i (length vals)); auto. apply IH. intros j. specialize (H j).
    destruct (nth_error ds j), (nth_error ds' j); auto. intros. apply H. rewrite H0. apply replace_length.
  - destruct (f w). auto.
Qed.

Lemma params_frame ps : forall ds ds' v r w, Forall2 (fun d d' : meaning W => forall v w, d v w = d' v w) ds ds' ->
  forall r', ext r r' -> sims ext (params_mean ps ds v r w) (params_mean ps ds' v r' w).
Proof.
  induction ps as [|[x k] ps IH]; intros ds ds' v r w F r' R; cbn [params_mean].
  - destruct F; exists r'; auto.
  - destruct F as [|d d' ds ds' Hd F]; [destruct k; exists r'; auto|]. destruct k as [s|].
    + eapply sims_bind with (R := eq).
      * rewrite Hd. destruct (d' v w) as [w' [y|n|]]; cbn; eauto.
      * intros y ? w' <-. apply IH; auto. intros z. unfold bound. destruct (str_eqb x z); [apply alike_refl|apply R].
    + apply IH; auto. intros z. unfold bound. destruct (str_eqb x z); auto.
Qed.

Definition blk_ext (b : blk W) : Prop := forall N r r' v w, scoped_blk N b = true -> ext_on N r r' ->
  sims (fun p q => fst q = fst p /\ ext_on (after b N) (snd p) (snd q)) (blk_means b r v w) (blk_means b r' v w).
Definition arg_ext (a : arg W) : Prop := forall N r r' v w, scoped_arg N a = true -> ext_on N r r' ->
  arg_means a r v w = arg_means a r' v w.

Lemma seen_ext p vars : forall vals N (r r' : nscope W), length vals = length vars -> ext_on N r r' ->
  ext_on (adds p vars N) (seen p vars vals r) (seen p vars vals r').
Proof.
  induction vars as [|b vars IH]; intros [|v vals] N r r' L E y Hy; cbn in L; try lia; cbn [seen].
  - apply E. exact Hy.
  - eapply (IH vals (fun x => (p (bv_scope b) && some (bv_slot b) && str_eqb (bv_name b) x) || N x)); [lia| |].
    + intros z Hz. destruct (p (bv_scope b)); cbn in Hz; [|apply E; auto].
      destruct (bv_slot b); cbn in Hz; [|apply E; auto].
      unfold bound. destruct (str_eqb (bv_name b) z); [apply alike_refl|apply E; auto].
    + unfold adds in Hy |- *. cbn [existsb] in Hy. rewrite orb_assoc, (orb_comm (existsb _ _)). exact Hy.
Qed.

Lemma means_ext_of bs : Forall blk_ext bs -> forall N r r' v w, scoped N bs = true -> ext_on N r r' ->
  means bs r v w = means bs r' v w.
Proof.
  induction 1 as [|b bs Hb _ IH]; intros N r r' v w Sc E; cbn [means]; auto. cbn [scoped] in Sc.
  apply andb_true_iff in Sc. destruct Sc as [S1 S2].
  assert (X := Hb N r r' v w S1 E). unfold bind. unfold sims in X.
  destruct (blk_means b r v w) as [w' [[x r1]|n|]].
  - destruct X as ([y r1'] & -> & [Hy K]). cbn in *. subst y. eapply IH; eauto.
  - rewrite X. auto.
  - rewrite X. auto.
Qed.

Lemma scoped_args_nth N (args : list (arg W)) : forall i0 i a, scoped_args N i0 args = true -> nth_error args i = Some a ->
  scoped_arg (N (i0 + i)) a = true.
Proof.
  induction args as [|b args IH]; intros i0 i a H Hi; [destruct i; discriminate|].
  change (scoped_arg (N i0) b && scoped_args N (S i0) args = true) in H. apply andb_true_iff in H. destruct H as [H1 H2].
  destruct i as [|i]; cbn in Hi.
  - injection Hi as <-. rewrite Nat.add_0_r. auto.
  - rewrite <- plus_n_Sm. apply (IH (S i0)); auto.
Qed.

Lemma all_ext : (forall b, blk_ext b) /\ (forall a, arg_ext a).
Proof.
  assert (O : forall vars args f, Forall arg_ext args -> blk_ext (BOp vars args f)).
  { intros vars args f Ha N r r' v w Sc E. rewrite !means_op. rewrite scoped_op in Sc.
    assert (EQ : act_means (args_means (fun i vals => seen (for_arg i) vars vals r) 0 args) (f v) (map (fun _ => VNil) vars) w
               = act_means (args_means (fun i vals => seen (for_arg i) vars vals r') 0 args) (f v) (map (fun _ => VNil) vars) w).
    { apply act_frame. intros i. rewrite !means_nth. destruct (nth_error args i) as [a|] eqn:Ea; cbn; auto.
      intros vals v' w' Lv. rewrite map_length in Lv. rewrite Forall_forall in Ha.
      eapply (Ha a); [eapply nth_error_In; eauto| |].
      - apply (scoped_args_nth _ _ 0 i Sc Ea).
      - apply seen_ext; auto. }
    unfold bind. rewrite EQ.
    destruct (act_means (args_means (fun i vals => seen (for_arg i) vars vals r') 0 args) (f v) (map (fun _ => VNil) vars) w)
      as [w' [[x vals]|n|]] eqn:Er; cbn; auto.
    eexists. split; [reflexivity|]. cbn. split; auto. apply seen_ext; auto.
    apply act_len in Er. cbn in Er. rewrite map_length in Er. exact Er. }
  assert (C : forall ps args body, Forall arg_ext args -> Forall blk_ext body -> blk_ext (BCall ps args body)).
  { intros ps args body Ha Hb N r r' v w Sc E. rewrite !means_call. rewrite scoped_call in Sc.
    apply andb_true_iff in Sc. destruct Sc as [Sc S3]. apply andb_true_iff in Sc. destruct Sc as [S1 S2].
    eapply sims_bind.
    - apply params_frame; auto.
      + clear S2. induction args as [|a args IHa]; cbn; constructor.
        * intros v' w'. inversion Ha; subst. cbn in S1. apply andb_true_iff in S1. eapply H1; [apply S1|auto].
        * inversion Ha; subst. cbn in S1. apply andb_true_iff in S1. apply IHa; tauto.
      + intros y. exact Logic.I.
    - intros r1 r1' w' R.
      eapply sims_bind with (R := eq).
      + rewrite (@means_ext_of body Hb _ r1 r1' v w' S3); [|intros y _; apply R].
        destruct (means body r1' v w') as [w2 [x|n|]]; cbn; eauto.
      + intros x ? w2 <-. eexists. split; [reflexivity|]. cbn. auto. }
  assert (X : forall e, Forall blk_ext e -> arg_ext (AExpr e)).
  { intros e H N r r' v w Sc E. rewrite scoped_expr in Sc. rewrite !means_expr. eapply means_ext_of; eauto. }
  assert (L : forall v, arg_ext (ALit v)) by (intros v N r r' i w Sc E; reflexivity).
  assert (V : forall x, arg_ext (AVar x)).
  { intros x N r r' i w Sc E. cbn in *. specialize (E x Sc). destruct (r x), (r' x); cbn in E; try easy. }
  split; [apply (@blk_ind2 W blk_ext arg_ext)|apply (@arg_ind2 W blk_ext arg_ext)]; auto.
Qed.

Lemma means_ext bs N r r' v w : scoped N bs = true -> ext_on N r r' -> means bs r v w = means bs r' v w.
Proof. apply means_ext_of. apply Forall_forall. intros b _. apply all_ext. Qed.

Lemma means_app bs1 : forall bs2 r v w, scoped (fun _ => false) bs2 = true ->
  means (bs1 ++ bs2) r v w = bind (means bs1 r v) (fun u => means bs2 (@nothing W) u) w.
Proof.
  induction bs1 as [|b bs1 IH]; intros bs2 r v w H; cbn [app means].
  - unfold bind, ret. eapply means_ext; eauto. intros y Hy. discriminate.
  - unfold bind. destruct (blk_means b r v w) as [w' [[x r1]|n|]]; auto. cbn. rewrite IH; auto.
Qed.

(** ** Calls *)
Lemma bound_only l : forall x (d : meaning W) r0, ~ In x (map fst l) ->
  forall y, (if str_eqb x y then Some d else match @only W l y with Some d' => Some d' | None => r0 y end)
          = match only l y with Some d' => Some d' | None => bound x d r0 y end.
Proof.
  induction l as [|[z e] l IH]; intros x d r0 N y; cbn [only map fst] in *; [reflexivity|].
  destruct (str_eqb x y) eqn:Exy.
  - apply str_eqb_eq in Exy. subst y. destruct (str_eqb z x) eqn:Ezx.
    + apply str_eqb_eq in Ezx. subst z. elim N. left; auto.
    + rewrite <- (IH x d r0) by (intro; apply N; right; auto). rewrite str_eqb_refl. reflexivity.
  - destruct (str_eqb z y); auto. rewrite <- (IH x d r0) by (intro; apply N; right; auto). rewrite Exy. reflexivity.
Qed.

Lemma params_passed ps : forall ds v r0 w w' r', length ps = length ds -> NoDup (map fst ps) ->
  (params_mean ps ds v r0 w = (w', Ok r') ->
   exists l, passed v ps ds w l w' /\ map fst l = map fst ps /\
             forall y, r' y = match @only W l y with Some d => Some d | None => r0 y end).
Proof.
  induction ps as [|[x k] ps IH]; intros [|d ds] v r0 w w' r' L N; cbn in L; try lia; cbn [params_mean].
  - intro H. injection H as <- <-. exists []. split; [constructor|]. split; auto.
  - cbn in N. inversion N as [|? ? Nx N']; subst. destruct k as [s|].
    + unfold bind. destruct (d v w) as [w1 [u|n|]] eqn:E; try discriminate. intro H.
      apply IH in H; auto. destruct H as (l & P & M1 & R). exists ((x, constant (W:=W) u) :: l). split; [|split].
      * econstructor; eauto.
      * cbn. f_equal. auto.
      * intros y. rewrite R. cbn [only]. rewrite <- bound_only by (rewrite M1; auto).
        destruct (str_eqb x y); auto.
    + intro H. apply IH in H; auto. destruct H as (l & P & M1 & R). exists ((x, d) :: l). split; [|split].
      * econstructor; eauto.
      * cbn. f_equal. auto.
      * intros y. rewrite R. cbn [only]. rewrite <- bound_only by (rewrite M1; auto).
        destruct (str_eqb x y); auto.
Qed.

Lemma passed_params v ps ds (w : W) l w' : passed v ps ds w l w' -> forall r0, exists r', params_mean ps ds v r0 w = (w', Ok r').
Proof.
  induction 1; intros r0; cbn [params_mean].
  - eexists. reflexivity.
  - unfold bind. rewrite H. apply IHpassed.
  - apply IHpassed.
Qed.
Lemma passed_fun v ps ds (w : W) l w' : passed v ps ds w l w' -> forall l2 w2, passed v ps ds w l2 w2 -> l = l2 /\ w' = w2.
Proof.
  induction 1 as [|x s ps d ds w u w1 l w2 Hd _ IH|x ps d ds w l w' _ IH]; intros l2 w3 H2; inversion H2; subst; auto.
  - match goal with Hx : d v w = (?a, Ok ?b) |- _ => rewrite Hd in Hx; injection Hx as <- <- end.
    match goal with Hx : passed v ps ds w1 _ _ |- _ => destruct (IH _ _ Hx) as [-> ->] end. auto.
  - match goal with Hx : passed v ps ds w _ _ |- _ => destruct (IH _ _ Hx) as [-> ->] end. auto.
Qed.

(** the first plain parameter whose argument does not give a value stops the call *)
Lemma params_stop ps : forall ds v r0 (w w' : W) (f : option nat), length ps = length ds ->
  (params_mean ps ds v r0 w = (w', halt f) <->
   exists ps1 x s ps2 ds1 d ds2 l w1, ps = ps1 ++ (x, Eager s) :: ps2 /\ ds = ds1 ++ d :: ds2 /\
     passed v ps1 ds1 w l w1 /\ d v w1 = (w', halt f)).
Proof.
  induction ps as [|[x k] ps IH]; intros [|d ds] v r0 w w' f L; cbn in L; try lia; cbn [params_mean].
  - split.
    + destruct f; discriminate.
    + intros (ps1 & x & s & ps2 & ds1 & d & ds2 & l & w1 & H & _). destruct ps1; discriminate.
  - destruct k as [s|].
    + unfold bind. split.
      * destruct (d v w) as [w1 [u|n|]] eqn:E.
        -- intro H. apply IH in H; auto. destruct H as (ps1 & x' & s' & ps2 & ds1 & d' & ds2 & l & w2 & -> & -> & P & F).
           exists ((x, Eager s) :: ps1), x', s', ps2, (d :: ds1), d', ds2, ((x, constant (W:=W) u) :: l), w2.
           repeat split; auto. econstructor; eauto.
        -- intro H. exists [], x, s, ps, [], d, ds, [], w. repeat split; auto; [constructor|]. rewrite E. destruct f; try discriminate H; injection H; intros; subst; reflexivity.
        -- intro H. exists [], x, s, ps, [], d, ds, [], w. repeat split; auto; [constructor|]. rewrite E. destruct f; try discriminate H; injection H; intros; subst; reflexivity.
      * intros (ps1 & x' & s' & ps2 & ds1 & d' & ds2 & l & w1 & Hp & Hd & P & F).
        destruct ps1 as [|p1 ps1]; cbn in Hp; inversion Hp; subst.
        -- inversion P; subst. cbn in Hd. injection Hd as <- <-. rewrite F. destruct f; auto.
        -- inversion P; subst. cbn in Hd. injection Hd as <- ->.
           match goal with Hx : d v w = (_, Ok _) |- _ => rewrite Hx end. apply IH; [auto|].
           exists ps1, x', s', ps2, ds0, d', ds2. eauto 8.
    + rewrite IH by auto. split.
      * intros (ps1 & x' & s' & ps2 & ds1 & d' & ds2 & l & w1 & -> & -> & P & F).
        exists ((x, Lazy) :: ps1), x', s', ps2, (d :: ds1), d', ds2, ((x, d) :: l), w1. repeat split; auto.
        constructor; auto.
      * intros (ps1 & x' & s' & ps2 & ds1 & d' & ds2 & l & w1 & Hp & Hd & P & F).
        destruct ps1 as [|p1 ps1]; cbn in Hp; inversion Hp; subst.
        inversion P; subst. cbn in Hd. injection Hd as <- ->.
        exists ps1, x', s', ps2, ds0, d', ds2. eauto 8.
Qed.

Lemma only_ext (r' : nscope W) l : (forall y, r' y = match only l y with Some d => Some d | None => @nothing W y end) ->
  ext r' (only l).
Proof. intros R y. rewrite R. unfold nothing. destruct (only l y); apply alike_refl. Qed.

Lemma call_value N ps args body r v (w w' : W) u r' : scoped_blk N (BCall ps args body) = true -> NoDup (map fst ps) ->
  (blk_means (BCall ps args body) r v w = (w', Ok (u, r')) <->
   r' = r /\ exists l w1, passed v ps (map (fun a => arg_means a r) args) w l w1 /\ means body (only l) v w1 = (w', Ok u)).
Proof.
  intros Sc Nd. rewrite scoped_call in Sc. apply andb_true_iff in Sc. destruct Sc as [Sc S3].
  apply andb_true_iff in Sc. destruct Sc as [_ S2]. apply Nat.eqb_eq in S2.
  assert (L : length ps = length (map (fun a => arg_means a r) args)) by (rewrite map_length; auto).
  rewrite means_call. unfold bind. split.
  - destruct (params_mean ps (map (fun a => arg_means a r) args) v (@nothing W) w) as [w1 [r1|n|]] eqn:E; try discriminate.
    apply params_passed in E; auto. destruct E as (l & P & _ & R). apply only_ext in R.
    rewrite (@means_ext body _ r1 (only l) v w1 S3) by (intros y _; apply R).
    destruct (means body (only l) v w1) as [w2 [x|n|]] eqn:Em; try discriminate. intro H. injection H as <- <- <-. eauto.
  - intros (-> & l & w1 & P & Em). destruct (passed_params P (@nothing W)) as [r1 E]. rewrite E.
    apply params_passed in E; auto. destruct E as (l2 & P2 & _ & R). apply only_ext in R.
    destruct (passed_fun P P2) as [-> _].
    rewrite (@means_ext body _ r1 (only l2) v w1 S3) by (intros y _; apply R). rewrite Em. reflexivity.
Qed.

Lemma call_stops N ps args body r v (w w' : W) f : scoped_blk N (BCall ps args body) = true -> NoDup (map fst ps) ->
  (blk_means (BCall ps args body) r v w = (w', halt f) <->
   (exists ps1 x s ps2 as1 a as2 l w1, ps = ps1 ++ (x, Eager s) :: ps2 /\ args = as1 ++ a :: as2 /\
      passed v ps1 (map (fun a => arg_means a r) as1) w l w1 /\ arg_means a r v w1 = (w', halt f)) \/
   (exists l w1, passed v ps (map (fun a => arg_means a r) args) w l w1 /\ means body (only l) v w1 = (w', halt f))).
Proof.
  intros Sc Nd. rewrite scoped_call in Sc. apply andb_true_iff in Sc. destruct Sc as [Sc S3].
  apply andb_true_iff in Sc. destruct Sc as [_ S2]. apply Nat.eqb_eq in S2.
  assert (L : length ps = length (map (fun a => arg_means a r) args)) by (rewrite map_length; auto).
  rewrite means_call. unfold bind. split.
  - destruct (params_mean ps (map (fun a => arg_means a r) args) v (@nothing W) w) as [w1 o] eqn:E.
    assert (G : forall f', o = halt f' -> f = f' -> w1 = w' -> exists ps1 x s ps2 as1 a as2 l w1, ps = ps1 ++ (x, Eager s) :: ps2 /\ args = as1 ++ a :: as2 /\
      passed v ps1 (map (fun a => arg_means a r) as1) w l w1 /\ arg_means a r v w1 = (w', halt f)).
    { intros f' -> -> ->. apply params_stop in E; auto.
      destruct E as (ps1 & x & s & ps2 & ds1 & d & ds2 & l & w2 & -> & Ed & P & F).
      apply map_eq_app in Ed. destruct Ed as (as1 & as' & -> & E1 & E2).
      destruct as' as [|a as2]; [discriminate|]. cbn in E2. injection E2 as E2 E3. subst.
      exists ps1, x, s, ps2, as1, a, as2, l, w2. auto. }
    destruct o as [r1|n|].
    + apply params_passed in E; auto. destruct E as (l & P & _ & R). apply only_ext in R.
      rewrite (@means_ext body _ r1 (only l) v w1 S3) by (intros y _; apply R).
      intro H. right. exists l, w1. split; auto. destruct (means body (only l) v w1) as [w2 [x|n|]] eqn:Em.
      * destruct f; discriminate.
      * destruct f; try discriminate. injection H as <- <-. reflexivity.
      * destruct f; try discriminate. injection H as <-. reflexivity.
    + intro H. left. destruct f; try discriminate. injection H as <- <-. apply (G (Some n)); auto.
    + intro H. left. destruct f; try discriminate. injection H as <-. apply (G None); auto.
  - intros [(ps1 & x & s & ps2 & as1 & a & as2 & l & w1 & Ep & Ea & P & F)|(l & w1 & P & F)].
    + assert (E : params_mean ps (map (fun a => arg_means a r) args) v (@nothing W) w = (w', halt f)).
      { apply params_stop; auto. exists ps1, x, s, ps2, (map (fun a => arg_means a r) as1), (arg_means a r),
          (map (fun a => arg_means a r) as2), l, w1. repeat split; auto. rewrite Ea, map_app. reflexivity. }
      rewrite E. destruct f; reflexivity.
    + destruct (passed_params P (@nothing W)) as [r1 E]. rewrite E.
      apply params_passed in E; auto. destruct E as (l2 & P2 & _ & R). apply only_ext in R.
      destruct (passed_fun P P2) as [-> _].
      rewrite (@means_ext body _ r1 (only l2) v w1 S3) by (intros y _; apply R). rewrite F. destruct f; reflexivity.
Qed.

(** ** A lazy parameter that is not used *)
Lemma params_but x ps : forall ds ds' v r r' w,
  Forall2 (fun p dd => (fst p = x /\ snd p = Lazy) \/ forall v w, fst dd v w = snd dd v w) ps (combine ds ds') ->
  length ds = length ds' -> (forall y, str_eqb x y = false -> alike (r y) (r' y)) ->
  sims (fun a b => forall y, str_eqb x y = false -> alike (a y) (b y))
    (params_mean ps ds v r w) (params_mean ps ds' v r' w).
Proof.
  induction ps as [|[z k] ps IH]; intros ds ds' v r r' w F L R.
  - cbn. destruct ds, ds'; exists r'; auto.
  - destruct ds as [|d ds], ds' as [|d' ds']; cbn in L; try lia; cbn [combine] in F; [inversion F|].
    inversion F as [|? ? ? ? Hd F']; subst. cbn [fst snd] in Hd. cbn [params_mean]. destruct k as [s|].
    + destruct Hd as [[_ H]|Hd]; [discriminate|].
      eapply sims_bind with (R := eq).
      * rewrite Hd. destruct (d' v w) as [w' [y|n|]]; cbn; eauto.
      * intros y ? w' <-. apply IH; auto. intros y' Hy. unfold bound. destruct (str_eqb z y'); [apply alike_refl|auto].
    + apply IH; auto. intros y' Hy. unfold bound. destruct (str_eqb z y') eqn:E; [|auto].
      destruct Hd as [[-> _]|Hd]; [congruence|exact Hd].
Qed.

Lemma lazy_unused x ps1 ps2 as1 as2 a a' body r v (w : W) :
  length ps1 = length as1 -> length ps2 = length as2 -> scoped (fun y => negb (str_eqb x y)) body = true ->
  blk_means (BCall (ps1 ++ (x, Lazy) :: ps2) (as1 ++ a :: as2) body) r v w =
  blk_means (BCall (ps1 ++ (x, Lazy) :: ps2) (as1 ++ a' :: as2) body) r v w.
Proof.
  intros L1 L2 Sc. rewrite !means_call. unfold bind.
  assert (G : sims (fun a b => forall y, str_eqb x y = false -> alike (a y) (b y))
    (params_mean (ps1 ++ (x, Lazy) :: ps2) (map (fun a => arg_means a r) (as1 ++ a :: as2)) v (@nothing W) w)
    (params_mean (ps1 ++ (x, Lazy) :: ps2) (map (fun a => arg_means a r) (as1 ++ a' :: as2)) v (@nothing W) w)).
  { apply params_but.
    - revert as1 L1. induction ps1 as [|p ps1 IH]; intros [|b as1] L1; cbn in L1; try lia; cbn [app map combine].
      + constructor; [left; auto|]. clear - L2. revert as2 L2.
        induction ps2 as [|p ps2 IH]; intros [|b as2] L2; cbn in *; try lia; constructor; auto.
      + constructor; auto.
    - rewrite !map_length, !app_length. reflexivity.
    - intros y _. exact Logic.I. }
  unfold sims in G.
  destruct (params_mean (ps1 ++ (x, Lazy) :: ps2) (map (fun a => arg_means a r) (as1 ++ a :: as2)) v (@nothing W) w)
    as [w1 [r1|n|]].
  - destruct G as (r1' & -> & R).
    rewrite (@means_ext body _ r1 r1' v w1 Sc); auto.
    intros y Hy. apply R. destruct (str_eqb x y); auto; discriminate.
  - rewrite G. auto.
  - rewrite G. auto.
Qed.

(** ** Compiled programs *)
Lemma program_outcome bs code n v w : link (@empty W) bs = Ok code -> NoDup (slots bs) -> (forall s, In s (slots bs) -> s < n) ->
  match means bs (@nothing W) v w with
  | (w', Ok x) => exists e, eval code v (env_new n) w = (w', Ok (x, e))
  | (w', Err k) => eval code v (env_new n) w = (w', Err k)
  | (w', Panic) => eval code v (env_new n) w = (w', Panic)
  end.
Proof.
  intros L N B. assert (X := program_runs bs v w L N B). unfold sims in X.
  destruct (means bs (@nothing W) v w) as [w' [x|k|]]; auto.
  destruct X as ([y e] & E & H). cbn in H. subst y. eauto.
Qed.

Lemma evals_split (l1 l2 : list (step W)) a c : evals (l1 ++ l2) a c <-> exists b, evals l1 a b /\ evals l2 b c.
Proof.
  rewrite evals_iff, runs_app. split; intros (b & H1 & H2); exists b; rewrite !evals_iff in *; auto.
Qed.
Lemma needed_only bs N r r' v (w : W) : scoped N bs = true -> (forall x, N x = true -> r x = r' x) ->
  means bs r v w = means bs r' v w.
Proof. intros Sc E. eapply means_ext; eauto. intros x Hx. rewrite E by auto. apply alike_refl. Qed.

Lemma link_app bs1 : forall bs2 (g : cscope W) code, link g (bs1 ++ bs2) = Ok code ->
  exists c1 g1 c2, link g bs1 = Ok c1 /\ link g1 bs2 = Ok c2 /\ code = c1 ++ c2.
Proof.
  induction bs1 as [|b bs1 IH]; intros bs2 g code H; cbn [app link] in H.
  - exists [], g, code. auto.
  - destruct (link_blk g b) as [[s g']| |] eqn:E; try discriminate H. cbn [rbind fst snd] in H.
    destruct (link g' (bs1 ++ bs2)) as [c| |] eqn:E2; try discriminate H. injection H as <-.
    apply IH in E2. destruct E2 as (c1 & g1 & c2 & H1 & H2 & ->). exists (s :: c1), g1, c2.
    cbn [link]. rewrite E. cbn [rbind fst snd]. rewrite H1. auto.
Qed.

(** the visible outcome of a run *)
Lemma program_pipe bs1 bs2 c1 c2 c n v w :
  link (@empty W) bs1 = Ok c1 -> link (@empty W) bs2 = Ok c2 -> link (@empty W) (bs1 ++ bs2) = Ok c ->
  NoDup (slots (bs1 ++ bs2)) -> (forall s, In s (slots (bs1 ++ bs2)) -> s < n) ->
  bind (eval c v (env_new n)) (fun p => ret (fst p)) w =
  bind (eval c1 v (env_new n)) (fun p => bind (eval c2 (fst p) (env_new n)) (fun q => ret (fst q))) w.
Proof.
  intros L1 L2 L N B. unfold slots in N, B. rewrite flat_map_app in N, B. fold (slots bs1) (slots bs2) in N, B.
  assert (Es : slots (bs1 ++ bs2) = slots bs1 ++ slots bs2) by apply flat_map_app.
  assert (X := @program_runs W (bs1 ++ bs2) c n v w L). rewrite Es in X. specialize (X N B).
  rewrite means_app in X by (apply scoped_links; eauto).
  assert (X1 := @program_runs W bs1 c1 n v w L1 (nodup_l _ _ N) (fun s Hs => B s (in_or_app _ _ _ (or_introl Hs)))).
  assert (X2 := fun v w => @program_runs W bs2 c2 n v w L2 (nodup_r _ _ N) (fun s Hs => B s (in_or_app _ _ _ (or_intror Hs)))).
  unfold bind in *. unfold sims in X, X1. destruct (means bs1 (@nothing W) v w) as [w1 [x|k|]].
  - destruct X1 as ([y e] & E1 & H). cbn in H. subst y. rewrite E1. cbn [fst].
    specialize (X2 x w1). unfold sims in X2. destruct (means bs2 (@nothing W) x w1) as [w2 [y|k|]].
    + destruct X2 as ([y2 e2] & E2 & H). cbn in H. subst y2. rewrite E2.
      destruct X as ([y3 e3] & E3 & H). cbn in H. subst y3. rewrite E3. reflexivity.
    + rewrite X, X2. reflexivity.
    + rewrite X, X2. reflexivity.
  - rewrite X, X1. reflexivity.
  - rewrite X, X1. reflexivity.
Qed.

End Exec.
