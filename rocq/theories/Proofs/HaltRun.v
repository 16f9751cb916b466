(** Compiling with ogma's own calls and parameters comes to an end. *)
From Coq Require Import String List NArith ZArith Bool Arith Lia Permutation.
From Verif Require Import Model.Base Model.Value Model.Ast Model.Registry Model.AstGraph Model.TyBuild Spec.AstGraphSpec Spec.TyBuildSpec Spec.RegistrySpec Spec.LocalsSpec Model.Compile Model.ArgApi
  Proofs.HaltLex Proofs.HaltTypes Proofs.HaltBatch Proofs.HaltProofs.
From Verif Require Model.TyGraph Model.Locals Model.Infer Spec.TyGraphSpec Proofs.TyGraphProofs Proofs.InferProofs.
From Verif Require Import Spec.CompileSpec Spec.ArgSpec Spec.ParamSpec Spec.HaltSpec Proofs.TyBuildBase Proofs.TyBuildNodes Proofs.CompileProofs Proofs.CompileInv Proofs.CompileRuns Proofs.CallProofs
  Proofs.ParamLocals Proofs.ParamAsks Proofs.ParamInv Proofs.HaltProg.
Import ListNotations.

Section R.
Variables (P : Type) (g : graph) (rep : tkey -> ty) (order : Locals.lmap -> Locals.lmap) (shuffle : list nat -> list nat) (seeds : list (str * ty)).
Variables (s : defs) (e : expr) (root : tkey) (anon : list tkey) (tg0 : tg_t) (cs0 : list AstGraph.chg).
Notation comp := (comp P ArgApi.binding cparam).
Implicit Types c : comp.
Variable progs : comp -> nat -> tkey -> prog P.
Variable NB : nat.
Hypothesis HS : start s e root anon = Ok (g, tg0).
Hypothesis HI : init s e = Ok (g, cs0).
Hypothesis HL : has_literal_types (df_types s).
Hypothesis HN : forall x t, node g x = Some (NExpr t) -> children g x <> [].
Hypothesis HO : forall m, Permutation (order m) m.
Hypothesis HR : forall t, key_of (rep t) = t.
Hypothesis HD : distinct_params (df_impls s).
Hypothesis HF : forall c cmd t, ParamSpec.fair g (progs c cmd t).
Notation told := (told P g).
Notation names := (var_names g).
Notation tells := (tells P g rep order seeds).
Hypothesis HM : forall hs c o cmd op f t r er, tells hs c -> settles c o TyGraph.In_ t -> key_impl g o t = Some cmd -> node g cmd = Some (NIntrinsic op f) ->
  run_intrinsic g c cmd t (progs c cmd t) = Good r -> r_res r = inr er -> Forall (modest names (told c) c) (r_asks r).
Hypothesis HB : forall e, In e (g_edges g) -> e_src e < NB /\ e_dst e < NB.
Notation intr := (ParamInv.intr P g progs).
Notation ca := (ParamInv.ca P g).
Notation mp := (ParamInv.mp P g rep).
Notation inv := (CompileInv.inv P ArgApi.binding cparam g tg0 intr ca mp).
Notation calm := (CompileInv.calm P ArgApi.binding cparam g).
Notation J := (ParamInv.J P g rep order seeds).
Notation small c := (HaltBatch.inv P ArgApi.binding cparam NB c).
Notation hfair := (HaltBatch.fair P ArgApi.binding cparam names).
Notation fok t := (HaltProofs.ok P ArgApi.binding cparam g names t NB).
Notation meas t := (HaltProofs.meas P ArgApi.binding cparam g names t NB).
Notation compile := (compile g intr ca mp order shuffle).
Notation round := (round g intr ca mp order shuffle).

(** ** The measure, with what is told in this state *)
Definition dm c : list nat := meas (told c) c.
Lemma dm_length : forall c, length (dm c) = 12.
Proof. intros c. apply meas_length. Qed.
Definition front c : list nat := high P _ _ g c ++ [n_absent NB (fst (c_tg c)); length (TyGraph.pending (c_tg c)); n_open (fst (c_tg c)); n_broad (fst (c_tg c))].
Definition rest (t : TyGraph.slot -> bool) c : list nat := n_turned t (fst (c_tg c)) :: HaltLocals.lgv names (c_lg c).
Lemma meas_split : forall t c, meas t c = front c ++ rest t c.
Proof. reflexivity. Qed.
Lemma rest_length : forall t c, length (rest t c) = 4.
Proof. reflexivity. Qed.
Lemma split_lex : forall a b l m, length a = length b -> lex (a ++ l) (b ++ m) -> lex a b \/ a = b /\ lex l m.
Proof.
  induction a as [|x a IH]; intros [|y b] l m E H; try discriminate; cbn in *; [right; auto|]. injection E as E. inversion H; subst.
  - left. constructor; auto.
  - apply IH in H1; [|auto]. destruct H1 as [H1|(-> & H1)]; [left; now constructor 2|auto].
Qed.
Lemma total_same : forall w w', (forall p k, w p k = w' p k) -> forall l i, total w l i = total w' l i.
Proof. intros w w' E. induction l as [|n l IH]; intros i; cbn [total]; [auto|]. now rewrite !E, IH. Qed.
Lemma turned_same : forall t t' tg, (forall p, t p = t' p) -> n_turned t tg = n_turned t' tg.
Proof. intros t t' tg E. unfold n_turned. apply total_same. intros p k. unfold turned. now rewrite E. Qed.
Lemma told_same : forall c c', (forall o, fixed_ty P c' o = fixed_ty P c o) -> forall p, told c' p = told c p.
Proof.
  intros c c' E [n sd]. unfold HaltProg.told. cbn [snd fst]. destruct sd; [|reflexivity]. f_equal. unfold own. induction (TyBuild.indices g TyBuild.is_op) as [|o l IH]; cbn; [auto|]. now rewrite E, IH.
Qed.
Lemma open_told : forall c c', TyGraphProofs.keeps tkey (fst (c_tg c)) (fst (c_tg c')) -> n_open (fst (c_tg c')) = n_open (fst (c_tg c)) -> forall p, told c' p = told c p.
Proof.
  intros c c' K E. apply told_same. intros o. destruct (fixed_ty P c o) as [t|] eqn:F.
  - apply fixed_iff in F. apply fixed_iff. destruct K as (_ & K & _). apply K. exact F.
  - destruct (fixed_ty P c' o) as [t|] eqn:F'; [|auto]. exfalso. apply fixed_iff in F'. assert (n_open (fst (c_tg c')) < n_open (fst (c_tg c))); [|lia]. eapply keeps_open; [exact K| |exact F'].
    assert (KN : TyGraph.kn_at (fst (c_tg c)) (o, TyGraph.In_) <> None). { apply TyGraphProofs.kn_at_bound. destruct K as (L & _). rewrite L. apply TyGraphProofs.kn_at_bound. unfold settles, TyGraphSpec.settled in F'. destruct F'; congruence. }
    unfold fixed_ty, kn in F. destruct (TyGraph.kn_at (fst (c_tg c)) (o, TyGraph.In_)) as [[|u|u|ts]|]; try discriminate; [| |congruence]; eexists; split; reflexivity.
Qed.
Lemma front_length : forall c, length (front c) = 8.
Proof. reflexivity. Qed.
Lemma front_open : forall c c', front c' = front c -> n_open (fst (c_tg c')) = n_open (fst (c_tg c)).
Proof. intros c c' H. unfold front, high in H. cbn [app] in H. injection H. auto. Qed.
Lemma front_lt : forall c c', lex (front c') (front c) -> lex (dm c') (dm c).
Proof. intros c c' H. unfold dm. rewrite !meas_split. apply lex_app; [exact H|reflexivity]. Qed.
Lemma high_dm : forall c c', lex (high P _ _ g c') (high P _ _ g c) -> lex (dm c') (dm c).
Proof. intros c c' H. apply front_lt. unfold front. apply lex_app; [exact H|reflexivity]. Qed.
Lemma dyn_lt : forall c c', TyGraphProofs.keeps tkey (fst (c_tg c)) (fst (c_tg c')) -> lex (meas (told c) c') (meas (told c) c) -> lex (dm c') (dm c).
Proof.
  intros c c' K H. rewrite !meas_split in H. apply split_lex in H; [|reflexivity]. destruct H as [H|(E & H)]; [now apply front_lt|].
  unfold dm. rewrite !meas_split, E. apply lex_under. unfold rest in *. rewrite (turned_same (told c') (told c)); [exact H|]. apply open_told; [auto|now apply front_open].
Qed.
Lemma dyn_le : forall c c', TyGraphProofs.keeps tkey (fst (c_tg c)) (fst (c_tg c')) -> lexeq (meas (told c) c') (meas (told c) c) -> lexeq (dm c') (dm c).
Proof.
  intros c c' K [H|H]; [|right; now apply dyn_lt]. left. rewrite !meas_split in H.
  assert (E : front c' = front c /\ rest (told c) c' = rest (told c) c). { assert (Z : forall a b l m : list nat, length a = length b -> a ++ l = b ++ m -> a = b /\ l = m).
    { induction a as [|x a IH]; intros [|y b] l m L Q; try discriminate; cbn in *; [auto|]. injection L as L. injection Q as -> Q. destruct (IH _ _ _ L Q) as (-> & ->). auto. }
    apply Z; [reflexivity|exact H]. }
  destruct E as (E & F). unfold dm. rewrite !meas_split, E. f_equal. unfold rest in *. rewrite (turned_same (told c') (told c)); [exact F|]. apply open_told; [auto|now apply front_open].
Qed.

Definition KK c : Prop := small c /\ inv c /\ J c.
Definition dok c c' (b : bool) : Prop := KK c' /\ lexeq (dm c') (dm c) /\ (b = true -> lex (dm c') (dm c)).
Lemma dok_of : forall c c' b, TyGraphProofs.keeps tkey (fst (c_tg c)) (fst (c_tg c')) -> inv c' -> J c' -> fok (told c) c c' b -> dok c c' b.
Proof. intros c c' b K I0 J0 (S & L & T). split; [split; auto|]. split; [now apply dyn_le|]. intros B. apply dyn_lt; auto. Qed.
Lemma dok_refl : forall c, KK c -> dok c c false.
Proof. intros c K. split; [auto|]. split; [apply lexeq_refl|discriminate]. Qed.
Lemma dok_after : forall c a c2 b, lexeq (dm a) (dm c) -> dok a c2 b -> dok c c2 b.
Proof. intros c a c2 b L (Z1 & Z2 & Z3). split; [auto|]. split; [eapply lexeq_trans; eauto|]. intros B. eapply lex_lexeq; eauto. Qed.
Lemma moves_keeps : forall c c', moves P _ _ g c c' -> TyGraphProofs.keeps tkey (fst (c_tg c)) (fst (c_tg c')).
Proof. intros c c' (_ & _ & _ & xs & _ & H). pose proof (TyGraphProofs.compile_keeps tkey tkey_eqb tkey_eqb_eq xs (c_tg c)) as K. rewrite H in K. exact K. Qed.
Lemma apply_keeps : forall cs c acc c' b, apply_all order c cs acc = Good (c', b) -> TyGraphProofs.keeps tkey (fst (c_tg c)) (fst (c_tg c')).
Proof.
  induction cs as [|[x|x] cs IH]; intros c acc c' b H; cbn [apply_all] in H; [injection H as <- <-; apply TyGraphProofs.keeps_refl| |].
  - pose proof (TyGraphProofs.apply_chg_keeps tkey tkey_eqb tkey_eqb_eq (fst (c_tg c)) x) as K.
    destruct (TyGraph.apply_chg tkey_eqb (fst (c_tg c)) x) as [tg [b0|er|]]; try discriminate. cbn [fst] in K. apply IH in H. eapply TyGraphProofs.keeps_trans; [exact K|exact H].
  - destruct (Locals.apply_chg order (c_lg c) x) as [[b0 lg]|er|]; try discriminate. now apply IH in H.
Qed.

(** ** The phases *)
Lemma p_resolve : forall c c', KK c -> resolve c = Good c' -> dok c c' false /\ calm c'.
Proof.
  intros c c' (S & I0 & J0) H. assert (C1 : calm c') by (eapply (resolve_calm _ _ _ s e root anon g tg0 HS HL); [exact (proj1 I0)|exact H]). split; [|auto].
  pose proof (resolve_lg _ _ _ H) as L1. pose proof H as H1. apply (resolve_moves P _ _ g) in H1. destruct H1 as (M1 & _).
  apply dok_of; [now apply moves_keeps|eapply inv_moves; eauto|eapply J_moves; eauto|]. now apply ok_resolve.
Qed.
Lemma p_populate : forall c c' b, KK c -> calm c -> populate g c = (c', b) -> dok c c' b /\ (b = false -> calm c').
Proof.
  intros c c' b (S & I0 & J0) C H. pose proof H as H2. pose proof (populate_lg _ _ _ _ _ _ _ H2) as (P1 & P2 & P3). eapply (populate_ok _ _ _ s e root anon g tg0 HS) in H2; eauto. destruct H2 as (I2 & G2 & C2 & Z2).
  assert (J2 : J c') by (eapply J_same; eauto). split; [|intros B; specialize (Z2 B); now subst c'].
  apply dok_of; auto; [|eapply ok_populate; eauto]. pose proof (populate_mono P ArgApi.binding cparam g (filter (fun e => negb (has e (c_exprs c)) && (has_ty_at c e TyGraph.In_ && has_ty_at c e TyGraph.Out_)) (TyBuild.indices g TyBuild.is_expr)) c false) as X.
  unfold populate in H. rewrite H in X. cbn [fst snd] in X. destruct X as (_ & _ & _ & T & _). rewrite T. apply TyGraphProofs.keeps_refl.
Qed.
Lemma p_vars : forall c c' b, KK c -> calm c -> assign_variable_types g order c = Good (c', b) -> dok c c' b /\ (b = false -> calm c').
Proof.
  intros c c' b (S & I0 & J0) C H. pose proof H as H3. pose proof (assign_lg _ _ _ _ _ _ H3) as L3. apply assign_moves in H3. destruct H3 as (M3 & S3).
  split; [|intros B; eapply calm_same; eauto]. apply dok_of; [now apply moves_keeps|eapply inv_moves; eauto|eapply J_moves; eauto|]. eapply ok_vars; eauto.
Qed.
Lemma locals_flag : forall ds c cs b c' cs' b', locals_loop g mp order c ds cs b = Good (c', cs', b') ->
  c_ops c' = c_ops c /\ c_exprs c' = c_exprs c /\ c_depth c' = c_depth c /\ c_tg c' = c_tg c /\
  (forall n, has n (c_params c) = true -> has n (c_params c') = true) /\
  (b' = b /\ c' = c \/ b' = true /\ exists d, In d ds /\ has d (c_params c') = true).
Proof.
  induction ds as [|d ds IH]; intros c cs b c' cs' b' H; cbn [locals_loop] in H; [injection H as <- <- <-; intuition|].
  apply obind_good in H. destruct H as (ra & E & H). destruct ra as [[[ps| |]|er] asks]; try discriminate.
  - apply obind_good in H. destruct H as (x & _ & H). apply obind_good in H. destruct H as (lg & _ & H). apply IH in H.
    cbn [c_ops c_exprs c_depth c_tg c_params set_lg set_params] in H. destruct H as (O & X & D & T & M & R).
    split; [auto|]. split; [auto|]. split; [auto|]. split; [auto|]. split.
    + intros n N. apply M. rewrite has_ins, N. apply orb_true_r.
    + right. split; [destruct R as [(R & _)|(R & _)]; auto|]. exists d. split; [now left|]. apply M. now rewrite has_ins, Nat.eqb_refl.
  - apply IH in H. destruct H as (O & X & D & T & M & R). repeat (split; [assumption|]). destruct R as [R|(R & x & Z & N)]; [auto|]. right. split; [auto|]. exists x. split; [now right|auto].
  - apply IH in H. destruct H as (O & X & D & T & M & R). repeat (split; [assumption|]). destruct R as [R|(R & x & Z & N)]; [auto|]. right. split; [auto|]. exists x. split; [now right|auto].
Qed.
Lemma locals_fair : forall hs c, tells hs c -> forall ds cs b c' cs', (forall d, In d ds -> exists y ps, node g d = Some (NDef y ps)) ->
  locals_loop g mp order c ds cs b = Good (c', cs', false) -> Forall (hfair (told c) c) cs -> Forall (hfair (told c) c) cs'.
Proof.
  intros hs c T. induction ds as [|d ds IH]; intros cs b c' cs' DF H F; cbn [locals_loop] in H; [now injection H as _ <- _|].
  apply obind_good in H. destruct H as (ra & E & H). apply expect_good in E. apply shown_some in E. destruct (DF d (or_introl eq_refl)) as (y & ps & N). destruct ra as [r asks].
  pose proof (params_modest P g rep order seeds s e root anon tg0 cs0 HS HI HO hs c d y ps r asks T N E) as MP.
  destruct r as [[qs| |]|er]; try discriminate.
  - apply obind_good in H. destruct H as (x & _ & H). apply obind_good in H. destruct H as (lg & _ & H). apply locals_flag in H. destruct H as (_ & _ & _ & _ & _ & [(H & _)|(H & _)]); discriminate.
  - eapply IH; [|exact H|apply Forall_app; split; [auto|now apply modest_fair]]. intros; apply DF; now right.
  - eapply IH; [|exact H|apply Forall_app; split; [auto|now apply modest_fair]]. intros; apply DF; now right.
Qed.
Lemma p_locals : forall c c' b, KK c -> calm c -> insert_available_def_locals g mp order c = Good (c', b) -> dok c c' b /\ (b = false -> calm c').
Proof.
  intros c c' b (S & I0 & J0) C H. pose proof H as H4. pose proof (locals_moves _ _ _ _ _ _ _ _ _ H4) as S4.
  assert (J4 : J c') by (eapply (available_J P g rep order seeds s e root anon tg0 cs0 HS HI HO HR HD); [|exact J0|exact H4]; eapply calm_ease; exact C).
  apply (locals_inv _ _ _ _ tg0 intr ca) in H4; [|auto|eapply calm_ease; exact C]. destruct H4 as (I4 & _).
  split; [|intros B; destruct (S4 B) as (_ & SK4); eapply calm_same; eauto].
  unfold insert_available_def_locals in H. apply obind_good in H. destruct H as ([[c1 cs] b1] & E & H). apply obind_good in H. destruct H as ([c2 b2] & E2 & H). cbn [fst snd] in *. injection H as <- <-.
  pose proof E as E0. apply locals_flag in E0. destruct E0 as (O & X & D & T & M & R). destruct R as [(-> & ->)|(-> & d & Jd & N)].
  - cbn [orb]. apply dok_of; auto; [eapply apply_keeps; eauto|]. eapply ok_batch; [exact S| |exact E2]. destruct J0 as (hs & TL & _). eapply locals_fair; [exact TL| |exact E|constructor].
    intros d Jd. apply filter_In in Jd. destruct Jd as (Jd & _). apply known_def in Jd. unfold TyBuild.indices in Jd. apply filter_In in Jd. destruct Jd as (_ & Jd). destruct (node g d) as [[]|]; try discriminate. eauto.
  - apply filter_In in Jd. destruct Jd as (Jd & Z). apply negb_true_iff in Z. assert (S1 : small c1) by (unfold HaltBatch.inv in *; now rewrite T).
    apply apply_frame with (NB := NB) in E2; auto. destruct E2 as ((O2 & X2 & P2 & D2) & S2).
    assert (LT : lex (dm c2) (dm c)).
    { apply high_dm. unfold high. rewrite O2, X2, P2, D2, O, X, D. constructor 2. constructor 2. constructor 2. constructor 1; [|reflexivity].
      eapply missing_lt; eauto. eapply known_def; eauto. }
    split; [split; auto|]. split; [now right|auto].
Qed.
Lemma p_links : forall c c' b, KK c -> calm c -> link_known_def_path_args g c = Good (c', b) -> dok c c' b /\ (b = false -> calm c').
Proof.
  intros c c' b (S & I0 & J0) C H. pose proof H as H5. assert (L5 : c_lg c' = c_lg c) by (pose proof H5 as H5'; unfold link_known_def_path_args in H5'; apply obind_good in H5'; destruct H5' as (ds & _ & H5'); now apply link_lg in H5').
  apply (link_moves _ _ _ s e root anon g tg0 HS HN) in H5. destruct H5 as (M5 & S5). split; [|intros B; eapply calm_same; eauto].
  apply dok_of; [now apply moves_keeps|eapply inv_moves; eauto|eapply J_moves; eauto|]. eapply ok_links; eauto.
Qed.
Lemma block_fair' : forall hs c op t r er, tells hs c -> calm c -> ty_at c op TyGraph.In_ = Some t -> compile_block g intr ca c op t = Good r -> r_res r = inr er -> Forall (hfair (told c) c) (map asked (r_asks r)).
Proof.
  intros hs c op t r er T C TY H R. apply (proj2 C) in TY. unfold compile_block in H. destruct (key_impl g op t) as [cmd|] eqn:KI; [|injection H as <-; constructor].
  destruct (node g cmd) as [[| o f|y ps| | | | | | ]|] eqn:N; try discriminate.
  - apply obind_good in H. destruct H as (r0 & E0 & H). apply expect_good in E0. apply shown_some in E0. injection H as <-. cbn [r_res r_asks] in *. apply modest_fair.
    destruct (r_res r0) as [[u x]|er1] eqn:E; [discriminate|]. eapply HM; eauto.
  - apply obind_good in H. destruct H as (x & DE & H). apply sure_good in DE. destruct (alookup Nat.eqb x (c_exprs c)).
    + apply obind_good in H. destruct H as ([r1 asks] & E & H). apply expect_good in E. apply shown_some in E.
      pose proof (calls_modest P g rep order seeds s e root anon tg0 cs0 HS HI HO hs c cmd y ps t r1 asks T N E) as MC. destruct r1 as [pl|er1].
      * apply obind_good in H. destruct H as (u & _ & H). injection H as <-. discriminate.
      * injection H as <-. cbn [r_asks]. now apply modest_fair.
    + injection H as <-. cbn. constructor; [|constructor]. left. eapply body_told; eauto.
Qed.
Lemma blocks_flag : forall ns c cs d er c' cs' d' er', blocks_loop g intr ca c ns cs d er = Good (c', cs', d', er') ->
  c_exprs c' = c_exprs c /\ c_params c' = c_params c /\ c_depth c' = c_depth c /\ c_tg c' = c_tg c /\ c_lg c' = c_lg c /\
  (forall n, has n (c_ops c) = true -> has n (c_ops c') = true) /\
  (d' = d /\ c_ops c' = c_ops c \/ d' = true /\ exists n, In n ns /\ has n (c_ops c') = true).
Proof.
  induction ns as [|n ns IH]; intros c cs d er c' cs' d' er' H; cbn [Compile.blocks_loop] in H; [injection H as <- <- <- <-; intuition|].
  apply obind_good in H. destruct H as (t & _ & H). apply obind_good in H. destruct H as (r & E & H). destruct (r_res r) as [st|e1] eqn:R.
  - apply IH in H. cbn [c_exprs c_params c_depth c_tg c_lg c_ops set_ops] in H. destruct H as (X & PA & D & T & L & M & Z).
    repeat (split; [assumption|]). split; [intros k K; apply M; rewrite has_ins, K; apply orb_true_r|]. right. split; [destruct Z as [(Z & _)|(Z & _)]; auto|].
    exists n. split; [now left|]. apply M. now rewrite has_ins, Nat.eqb_refl.
  - apply IH in H. set (c1 := if r_infer r then set_infer c (c_infer c ++ [n]) else c) in *.
    assert (S : c_exprs c1 = c_exprs c /\ c_params c1 = c_params c /\ c_depth c1 = c_depth c /\ c_tg c1 = c_tg c /\ c_lg c1 = c_lg c /\ c_ops c1 = c_ops c).
    { unfold c1. destruct (r_infer r); cbn; auto 10. }
    clearbody c1. destruct S as (S1 & S2 & S3 & S4 & S5 & S6). destruct H as (X & PA & D & T & L & M & Z).
    split; [congruence|]. split; [congruence|]. split; [congruence|]. split; [congruence|]. split; [congruence|]. split; [intros k K; apply M; now rewrite S6|].
    destruct Z as [(Z1 & Z2)|(Z & k & Q & K)]; [left; split; [auto|congruence]|]. right. split; [auto|]. exists k. split; [now right|auto].
Qed.
Lemma same_told : forall c c1, c_tg c1 = c_tg c -> told c1 = told c.
Proof. intros c c1 E. unfold HaltProg.told, own, fixed_ty, kn. now rewrite E. Qed.
Lemma blocks_fair : forall hs ns c cs d er c' cs' er', tells hs c -> calm c -> blocks_loop g intr ca c ns cs d er = Good (c', cs', false, er') ->
  Forall (hfair (told c) c) cs -> Forall (hfair (told c) c) cs'.
Proof.
  intros hs. induction ns as [|n ns IH]; intros c cs d er c' cs' er' TL C H F; cbn [Compile.blocks_loop] in H; [now injection H as _ <- _ _|].
  apply obind_good in H. destruct H as (t & TY & H). apply expect_good in TY. apply obind_good in H. destruct H as (r & E & H). destruct (r_res r) as [st|e1] eqn:R.
  - apply blocks_flag in H. destruct H as (_ & _ & _ & _ & _ & _ & [(H & _)|(H & _)]); discriminate.
  - set (c1 := if r_infer r then set_infer c (c_infer c ++ [n]) else c) in *.
    assert (S : c_exprs c1 = c_exprs c /\ c_params c1 = c_params c /\ c_depth c1 = c_depth c /\ c_tg c1 = c_tg c /\ c_lg c1 = c_lg c /\ c_ops c1 = c_ops c).
    { unfold c1. destruct (r_infer r); cbn; auto 10. }
    clearbody c1. destruct S as (S1 & S2 & S3 & S4 & S5 & S6).
    assert (FS : forall x, hfair (told c) c x <-> hfair (told c1) c1 x). { intros x. rewrite (same_told _ _ S4). split; apply fair_same; auto. }
    assert (G1 : grows c c1) by (unfold grows, settles, has_step, has_stack; rewrite S1, S4, S6; auto).
    assert (F1 : Forall (hfair (told c1) c1) ((cs ++ map asked (r_asks r)) ++ (if r_adds r then [] else [Lg (Locals.Seal n)]))).
    { eapply Forall_impl; [intros x Z; apply FS; exact Z|]. apply Forall_app. split; [apply Forall_app; split; [auto|eapply block_fair'; eauto]|]. destruct (r_adds r); repeat constructor. }
    eapply IH in H; [| | |exact F1].
    + eapply Forall_impl; [|exact H]. intros x Z. now apply FS.
    + eapply (tells_tg P g rep order seeds hs c c1); auto; [apply G1|rewrite S2; auto].
    + eapply calm_same; [|exact C]. intros m sd. unfold kn. now rewrite S4.
Qed.
Lemma p_blocks : forall c c' er, KK c -> calm c -> compile_blocks g intr ca order c = Good (c', er) -> dok c c' (match er with None => true | Some _ => false end).
Proof.
  intros c c' er (S & I0 & J0) C H. assert (J6 : J c') by (eapply (compile_blocks_J P g rep order seeds s e root anon tg0 cs0); eauto).
  assert (I6 : inv c'). { pose proof H as H6. apply (compile_blocks_ok _ _ _ s e root anon g tg0 HS HL intr ca mp order HN) in H6; auto. apply H6. }
  unfold compile_blocks in H. apply obind_good in H. destruct H as ([[[c1 cs] d] er1] & E & H). apply obind_good in H. destruct H as ([c2 b] & E2 & H).
  cbn [fst snd] in H. pose proof E as E0. apply blocks_flag in E0. destruct E0 as (X & PA & D & T & L & M & Z). assert (S1 : small c1) by (unfold HaltBatch.inv in *; now rewrite T).
  assert (c2 = c') as -> by (destruct (d || b); [now injection H|destruct er1; [now injection H|discriminate]]).
  destruct Z as [(-> & Z2)|(-> & k & Jk & K)].
  - cbn [orb] in H. destruct J0 as (hs & TL & _). apply (blocks_fair hs) in E; [|auto|auto|constructor].
    assert (F1 : frame P _ _ c c1) by (repeat split; assumption). assert (TE : tlv P _ _ names (told c) NB c1 = tlv P _ _ names (told c) NB c) by (unfold HaltBatch.tlv; now rewrite T, L).
    pose proof (apply_keeps _ _ _ _ _ E2) as KP. rewrite T in KP.
    destruct (batch P _ _ order names (told c) NB _ _ c _ _ S1 T L E E2) as (FR & I2 & L2 & S2). rewrite TE in *. pose proof (frame_trans _ _ _ _ _ _ F1 FR) as F2.
    apply dok_of; auto. split; [auto|]. split; [now apply frame_le|]. intros B. apply frame_lt; auto. apply S2. destruct b; [reflexivity|]. destruct er1; [injection H as <-; discriminate|discriminate].
  - cbn [orb] in H. injection H as <-. apply apply_frame with (NB := NB) in E2; auto. destruct E2 as ((O2 & X2 & P2 & D2) & I2). unfold ready in Jk. apply filter_In in Jk. destruct Jk as (Jk & Y).
    apply andb_true_iff in Y. destruct Y as (Y & _). apply negb_true_iff in Y.
    assert (LT : lex (dm c') (dm c)); [|split; [split; auto|split; [now right|auto]]].
    apply high_dm. unfold high. rewrite O2, X2, P2, D2, X, PA, D. constructor 2. constructor 1; [|reflexivity]. eapply missing_lt; eauto.
Qed.

(** ** Guesses *)
Lemma p_iblock : forall c c' a, KK c -> infer_inputs_block g intr ca order c = Good (c', a) -> dok c c' (yes a).
Proof.
  intros c c' a (S & I0 & J0) H. pose proof H as H1. pose proof (inputs_block_lg _ _ _ _ _ _ _ H1) as LG. apply inputs_block_moves in H1. destruct H1 as (M1 & _).
  apply dok_of; [now apply moves_keeps|eapply inv_moves; eauto|eapply J_moves; eauto|]. eapply ok_iblock; eauto.
Qed.
Lemma small_moves : forall c c', moves P _ _ g c c' -> small c -> small c'.
Proof. intros c c' M S. apply moves_keeps in M. destruct M as (L & _). unfold HaltBatch.inv in *. lia. Qed.
Lemma trial_state : forall c sd n t c1 b1, KK c -> apply_all order (set_depth c (S (c_depth c))) [Tg (oblige sd n t)] false = Good (c1, b1) -> KK c1 /\ c_depth c1 = S (c_depth c).
Proof.
  intros c sd n t c1 b1 (S & I0 & J0) AP. pose proof (apply_tg _ _ _ _ _ _ _ AP ltac:(repeat constructor)) as LG. cbn in LG. pose proof AP as AP1.
  apply apply_all_moves with (g := g) in AP; [|repeat constructor; destruct sd; exact Logic.I]. destruct AP as (MV & _).
  assert (M0 : moves P _ _ g c c1) by (eapply moves_trans; [apply moves_same|exact MV]; auto).
  apply apply_frame with (NB := NB) in AP1; [|exact S]. destruct AP1 as ((_ & _ & _ & D) & S1). split; [|exact D]. split; [auto|]. split; [eapply inv_moves; eauto|eapply J_moves; eauto].
Qed.
Section Trial.
Variable rec : comp -> nat -> out comp.
Hypothesis HRC : forall c b c', rec c b = Good c' -> KK c -> KK c' /\ lexeq (dm c') (dm c).
Lemma deeper' : forall c c1, c_depth c < 5 -> c_depth c1 = S (c_depth c) -> lex (dm c1) (dm c).
Proof. intros c c1 L D. apply high_dm. unfold high. constructor 1; [lia|reflexivity]. Qed.
Lemma p_guess : forall c sd brk ns c' a, KK c -> c_depth c < 5 -> guess order rec c sd brk ns = Good (c', a) -> dok c c' (yes a).
Proof.
  intros c sd brk ns c' a K D H. unfold guess in H. cbv zeta in H.
  set (f := fun n t => outcome_of (trial order rec c sd brk n t)) in *.
  destruct (Infer.round_loop _ ns None []) as [x|rm|n v|n|] eqn:R.
  - injection H as <- <-. apply InferProofs.round_adopted in R. destruct R as (l & n & r & _ & R & _). unfold Infer.test_compile_types in R. apply chosen_some in R.
    destruct R as [R|(t & _ & R)]; [discriminate|]. unfold trial in R. destruct (sure (brk n)) as [b|e1|w|]; try discriminate R.
    destruct (apply_all order (set_depth c (S (c_depth c))) [Tg (oblige sd n t)] false) as [[c1 b1]|e1|w|] eqn:E; cbn [outcome_of fst] in R; try discriminate.
    destruct (rec c1 b) as [c2|e1|w|] eqn:E2; try discriminate; [|destruct (er_deep e1); discriminate]. injection R as ->.
    apply trial_state in E; [|exact K]. destruct E as (K1 & D1). destruct (HRC _ _ _ E2 K1) as (K2 & L2).
    assert (LT : lex (dm x) (dm c)); [|split; [auto|split; [now right|auto]]]. eapply lexeq_lex; [exact L2|]. apply deeper'; auto.
  - destruct K as (S & I0 & J0). pose proof H as H0. apply (ok_yes_no P _ _ g names (told c) NB) in H0; [|exact S|apply strikes_fair].
    unfold yes_no in H. apply obind_good in H. destruct H as ([c1 b] & H & E1). injection E1 as <- <-. cbn [fst] in *.
    assert (LG : c_lg c1 = c_lg c) by (eapply apply_tg; [exact H|]; apply Forall_forall; intros x Z; apply in_map_iff in Z; destruct Z as (y & <- & _); exact Logic.I).
    apply apply_all_moves with (g := g) in H; [|apply Forall_forall; intros x Z; apply in_map_iff in Z; destruct Z as (y & <- & _); destruct sd; exact Logic.I]. destruct H as (MV & _).
    apply dok_of; [now apply moves_keeps|eapply inv_moves; eauto|eapply J_moves; eauto|exact H0].
  - injection H as <- <-. now apply dok_refl.
  - destruct (find _ _) as [[|[x|e1|w|]]|]; try discriminate. injection H as <- <-. now apply dok_refl.
  - injection H as <- <-. now apply dok_refl.
Qed.
Lemma KK_infer : forall c x, KK c -> KK (set_infer c x).
Proof. intros c x (S & I0 & J0). split; [exact S|]. split; [now apply inv_infer|]. eapply J_moves; [| |exact J0]; [reflexivity|now apply moves_same]. Qed.
Lemma p_outputs : forall c c' a, KK c -> infer_outputs g order rec c = Good (c', a) -> dok c c' (yes a).
Proof.
  intros c c' a K H. unfold infer_outputs in H. destruct (Nat.ltb_spec (c_depth c) 5) as [L|L].
  - apply p_guess in H; [exact H|now apply KK_infer|exact L].
  - injection H as <- <-. now apply dok_refl.
Qed.
Lemma p_inputs : forall c c' a, KK c -> infer_inputs_expr g order shuffle rec c = Good (c', a) -> dok c c' (yes a).
Proof.
  intros c c' a K H. unfold infer_inputs_expr in H. destruct (Nat.ltb_spec (c_depth c) 5) as [L|L].
  - apply obind_good in H. destruct H as (ns & _ & H). apply p_guess in H; auto.
  - injection H as <- <-. now apply dok_refl.
Qed.
Lemma p_guesses : forall c er c', KK c -> guesses g intr ca order shuffle rec c er = Good c' -> dok c c' true.
Proof.
  intros c er c' K H. unfold guesses in H. apply obind_good in H. destruct H as ([c1 a1] & E1 & H). apply p_iblock in E1; auto. destruct E1 as (I1 & L1 & S1).
  assert (W0 : forall er, (let! r := infer_outputs g order rec c1 in
      match r with
      | (c, Yes) => Good c
      | (c, a) =>
        let err := match a with Oops e => e | _ => er end in
        if match a with Oops e => er_hard e | _ => false end then Bad err else
        let! r := infer_inputs_expr g order shuffle rec c in
        match r with
        | (c, Yes) => Good c
        | (c, Oops e) => Bad e
        | (c, No) => Bad err
        end
      end) = Good c' -> dok c c' true).
  { intros er' W. apply obind_good in W. destruct W as ([c2 a2] & E2 & W). apply p_outputs in E2; auto. destruct E2 as (I2 & L2 & S2).
    assert (L3 : lexeq (dm c2) (dm c)) by (eapply lexeq_trans; eauto).
    assert (W2 : forall er2, (let! r := infer_inputs_expr g order shuffle rec c2 in match r with (c, Yes) => Good c | (c, Oops e) => Bad e | (c, No) => Bad er2 end) = Good c' -> dok c c' true).
    { intros er2 V. apply obind_good in V. destruct V as ([c3 a3] & E3 & V). apply p_inputs in E3; auto. destruct E3 as (I3 & L4 & S3). destruct a3; try discriminate. injection V as <-.
      assert (X : lex (dm c3) (dm c)) by (eapply lex_lexeq; [apply S3; reflexivity|exact L3]). split; [auto|split; [now right|auto]]. }
    destruct a2 as [| |e2]; cbn zeta in W.
    - injection W as <-. assert (X : lex (dm c2) (dm c)) by (eapply lex_lexeq; [apply S2; reflexivity|exact L1]). split; [auto|split; [now right|auto]].
    - apply W2 in W. exact W.
    - destruct (er_hard e2); [discriminate|]. apply W2 in W. exact W. }
  destruct a1 as [| |e1]; cbn zeta in H.
  - injection H as <-. split; [auto|]. split; [auto|]. intros _. apply S1. reflexivity.
  - apply W0 in H. exact H.
  - apply W0 in H. exact H.
Qed.
Lemma p_round : forall c c', KK c -> round rec c = Good c' -> dok c c' true.
Proof.
  intros c c' K H. unfold Compile.round in H. apply obind_good in H. destruct H as (c1 & E & H). apply p_resolve in E; auto. destruct E as ((K1 & L1 & _) & C1).
  destruct (populate g c1) as [c2 b2] eqn:E2. apply p_populate in E2; auto. destruct E2 as (E2 & C2). apply (dok_after c) in E2; auto. destruct b2; [injection H as <-; exact E2|]. specialize (C2 eq_refl). destruct E2 as (K2 & L2 & _).
  apply obind_good in H. destruct H as ([c3 b3] & E3 & H). apply p_vars in E3; auto. destruct E3 as (E3 & C3). apply (dok_after c) in E3; auto. cbn [fst snd] in H. destruct b3; [injection H as <-; exact E3|]. specialize (C3 eq_refl). destruct E3 as (K3 & L3 & _).
  apply obind_good in H. destruct H as ([c4 b4] & E4 & H). apply p_locals in E4; auto. destruct E4 as (E4 & C4). apply (dok_after c) in E4; auto. cbn [fst snd] in H. destruct b4; [injection H as <-; exact E4|]. specialize (C4 eq_refl). destruct E4 as (K4 & L4 & _).
  apply obind_good in H. destruct H as ([c5 b5] & E5 & H). apply p_links in E5; auto. destruct E5 as (E5 & C5). apply (dok_after c) in E5; auto. cbn [fst snd] in H. destruct b5; [injection H as <-; exact E5|]. specialize (C5 eq_refl). destruct E5 as (K5 & L5 & _).
  apply obind_good in H. destruct H as ([c6 b6] & E6 & H). apply p_blocks in E6; auto. apply (dok_after c) in E6; auto. cbn [fst snd] in H. destruct b6 as [e6|]; [|injection H as <-; exact E6]. destruct E6 as (K6 & L6 & _).
  destruct (er_hard e6); [discriminate|]. apply p_guesses in H; auto. apply (dok_after c) in H; auto.
Qed.
End Trial.
Lemma p_compile : forall f c b c', compile f c b = Good c' -> KK c -> KK c' /\ lexeq (dm c') (dm c).
Proof.
  induction f as [|f IH]; intros c b c' H I0; cbn [Compile.compile] in H; [discriminate|]. destruct (_ || _); [injection H as <-; split; [auto|apply lexeq_refl]|].
  apply obind_good in H. destruct H as (c1 & E & H). apply p_round in E; auto. destruct E as (I1 & L1 & _). apply IH in H; auto. destruct H as (I2 & L2).
  split; [auto|eapply lexeq_trans; eauto].
Qed.
Lemma guess_halts' : forall c sd brk ns, KK c -> (forall c1 b, KK c1 -> c_depth c1 = S (c_depth c) -> exists f, compile f c1 b <> NoFuel) ->
  exists f, guess order (compile f) c sd brk ns <> NoFuel.
Proof.
  intros c sd brk ns K H.
  assert (T1 : forall n t, exists f, forall f', f <= f' -> trial order (compile f') c sd brk n t <> Ran NoFuel).
  { intros n t. unfold trial. destruct (sure (brk n)) as [b|e1|w|] eqn:EB; try (exists 0; intros; discriminate).
    destruct (apply_all order (set_depth c (S (c_depth c))) [Tg (oblige sd n t)] false) as [[c1 b1]|e1|w|] eqn:E; try (exists 0; intros; discriminate).
    - apply trial_state in E; [|exact K]. destruct E as (K1 & D). destruct (H c1 b K1 D) as (f & F). exists f. intros f' L Z. cbn [fst] in Z. injection Z as Z.
      apply F. rewrite <- Z. symmetry. apply compile_more; auto.
    - exfalso. eapply apply_fuel; eauto. }
  assert (T2 : forall n ts, exists f, forall f', f <= f' -> forall t, In t ts -> trial order (compile f') c sd brk n t <> Ran NoFuel).
  { intros n. induction ts as [|t ts (f1 & F1)]; [exists 0; intros f' _ t []|]. destruct (T1 n t) as (f2 & F2). exists (f1 + f2). intros f' L u [<-|Z]; [apply F2; lia|apply F1; [lia|auto]]. }
  assert (T3 : forall ms, exists f, forall f', f <= f' -> forall n, In n ms -> forall t, In t (match tys_at c n sd with Some ts => ts | None => [] end) -> trial order (compile f') c sd brk n t <> Ran NoFuel).
  { induction ms as [|n ms (f1 & F1)]; [exists 0; intros f' _ n []|]. destruct (T2 n (match tys_at c n sd with Some ts => ts | None => [] end)) as (f2 & F2).
    exists (f1 + f2). intros f' L m [<-|Z]; [apply F2; lia|apply F1; [lia|auto]]. }
  destruct (T3 ns) as (f & F). exists f. specialize (F f (le_n _)). unfold guess. cbv zeta.
  destruct (Infer.round_loop _ ns None []) as [x|rm|n v|n|] eqn:R; try discriminate.
  - unfold yes_no. apply obind_fuel; [apply apply_fuel|discriminate].
  - apply deep_in in R. destruct (find _ _) as [[|[x|e1|w|]]|] eqn:FD; try discriminate. exfalso. apply find_some in FD. destruct FD as (Z & _). apply in_map_iff in Z.
    destruct Z as (t & E & Z). eapply F; eauto.
Qed.
Lemma round_halts' : forall c, KK c -> (forall c1 b, KK c1 -> lex (dm c1) (dm c) -> exists f, compile f c1 b <> NoFuel) ->
  exists f, round (compile f) c <> NoFuel.
Proof.
  intros c K H.
  assert (GH : forall c1 sd brk ns, KK c1 -> lexeq (dm c1) (dm c) -> c_depth c1 < 5 -> exists f, guess order (compile f) c1 sd brk ns <> NoFuel).
  { intros c1 sd brk ns I1 L D. apply guess_halts'; [auto|]. intros c2 b I2 D2. apply H; auto. eapply lex_lexeq; [apply deeper'; eauto|exact L]. }
  assert (OH : forall c1, KK c1 -> lexeq (dm c1) (dm c) -> exists f, infer_outputs g order (compile f) c1 <> NoFuel).
  { intros c1 I1 L. unfold infer_outputs. destruct (Nat.ltb_spec (c_depth c1) 5) as [D|D]; [|exists 0; discriminate]. apply GH; [now apply KK_infer|exact L|exact D]. }
  assert (IH : forall c1, KK c1 -> lexeq (dm c1) (dm c) -> exists f, infer_inputs_expr g order shuffle (compile f) c1 <> NoFuel).
  { intros c1 I1 L. unfold infer_inputs_expr. destruct (Nat.ltb_spec (c_depth c1) 5) as [D|D]; [|exists 0; discriminate]. cbv zeta.
    match goal with |- exists f, obind ?r _ <> _ => destruct r as [ns|e1|w|] eqn:E; cbn [obind]; try (exists 0; discriminate) end; [apply GH; auto|].
    exfalso. eapply ofilter_fuel; [|exact E]. intros n _. apply obind_fuel; [apply sure_fuel|discriminate]. }
  assert (MO : forall f f' c1, f <= f' -> infer_outputs g order (compile f) c1 <> NoFuel -> infer_outputs g order (compile f') c1 = infer_outputs g order (compile f) c1).
  { intros f f' c1 L. apply outputs_more. intros c2 b. apply compile_more. exact L. }
  assert (MI : forall f f' c1, f <= f' -> infer_inputs_expr g order shuffle (compile f) c1 <> NoFuel -> infer_inputs_expr g order shuffle (compile f') c1 = infer_inputs_expr g order shuffle (compile f) c1).
  { intros f f' c1 L. apply inputs_more. intros c2 b. apply compile_more. exact L. }
  assert (GS : forall c1 er, KK c1 -> lexeq (dm c1) (dm c) -> exists f, guesses g intr ca order shuffle (compile f) c1 er <> NoFuel).
  { intros c1 er I1 L1. unfold guesses. destruct (infer_inputs_block g intr ca order c1) as [[c2 a2]|e1|w|] eqn:E; cbn [obind]; try (exists 0; discriminate); [|exfalso; eapply iblock_fuel; eauto].
    apply p_iblock in E; auto. destruct E as (I2 & L2 & _). assert (L2' : lexeq (dm c2) (dm c)) by (eapply lexeq_trans; eauto).
    assert (REST : forall er, exists f, (let! r := infer_outputs g order (compile f) c2 in
      match r with
      | (c, Yes) => Good c
      | (c, a) =>
        let err := match a with Oops e => e | _ => er end in
        if match a with Oops e => er_hard e | _ => false end then Bad err else
        let! r := infer_inputs_expr g order shuffle (compile f) c in
        match r with
        | (c, Yes) => Good c
        | (c, Oops e) => Bad e
        | (c, No) => Bad err
        end
      end) <> NoFuel).
    { intros er'. destruct (OH c2 I2 L2') as (f1 & F1). destruct (infer_outputs g order (compile f1) c2) as [[c3 a3]|e1|w|] eqn:E3; try congruence.
      2, 3: exists f1; rewrite E3; discriminate.
      pose proof E3 as E3'. apply p_outputs in E3'; [|intros; eapply p_compile; eauto|auto]. destruct E3' as (I3 & L3 & _).
      destruct (IH c3 I3 (lexeq_trans _ _ _ L3 L2')) as (f2 & F2). exists (f1 + f2). rewrite (MO f1 (f1 + f2)) by (try lia; rewrite E3; discriminate). rewrite E3. cbn [obind].
      destruct a3 as [| |e3]; cbv zeta; [discriminate| |destruct (er_hard e3); [discriminate|]].
      all: rewrite (MI f2 (f1 + f2)) by (auto; lia); apply obind_fuel; [auto|]; intros [c4 [| |e4]] _; discriminate. }
    destruct a2 as [| |e2]; [exists 0; discriminate| |]; apply REST. }
  unfold Compile.round.
  destruct (resolve c) as [c1|e1|w|] eqn:E1; cbn [obind]; try (exists 0; discriminate); [|exfalso; eapply resolve_fuel; eauto].
  apply p_resolve in E1; auto. destruct E1 as ((I1 & L1 & _) & C1).
  destruct (populate g c1) as [c2 b2] eqn:E2. apply p_populate in E2; auto. destruct E2 as ((I2 & L2 & _) & C2). apply (fun x => lexeq_trans _ _ _ x L1) in L2.
  destruct b2; [exists 0; discriminate|]. specialize (C2 eq_refl).
  destruct (assign_variable_types g order c2) as [[c3 b3]|e1|w|] eqn:E3; cbn [obind fst snd]; try (exists 0; discriminate); [|exfalso; eapply vars_fuel; eauto].
  apply p_vars in E3; auto. destruct E3 as ((I3 & L3 & _) & C3). apply (fun x => lexeq_trans _ _ _ x L2) in L3. destruct b3; [exists 0; discriminate|]. specialize (C3 eq_refl).
  destruct (insert_available_def_locals g mp order c3) as [[c4 b4]|e1|w|] eqn:E4; cbn [obind fst snd]; try (exists 0; discriminate).
  2: { exfalso. revert E4. unfold insert_available_def_locals. apply obind_fuel; [apply locals_fuel|]. intros r _. apply obind_fuel; [apply apply_fuel|discriminate]. }
  apply p_locals in E4; auto. destruct E4 as ((I4 & L4 & _) & C4). apply (fun x => lexeq_trans _ _ _ x L3) in L4. destruct b4; [exists 0; discriminate|]. specialize (C4 eq_refl).
  destruct (link_known_def_path_args g c4) as [[c5 b5]|e1|w|] eqn:E5; cbn [obind fst snd]; try (exists 0; discriminate); [|exfalso; eapply links_fuel; eauto].
  apply p_links in E5; auto. destruct E5 as ((I5 & L5 & _) & C5). apply (fun x => lexeq_trans _ _ _ x L4) in L5. destruct b5; [exists 0; discriminate|]. specialize (C5 eq_refl).
  destruct (compile_blocks g intr ca order c5) as [[c6 b6]|e1|w|] eqn:E6; cbn [obind fst snd]; try (exists 0; discriminate); [|exfalso; eapply blocks_fuel; eauto].
  apply p_blocks in E6; auto. destruct E6 as (I6 & L6 & _). apply (fun x => lexeq_trans _ _ _ x L5) in L6. destruct b6 as [er|]; [|exists 0; discriminate].
  destruct (er_hard er); [exists 0; discriminate|]. apply GS; auto.
Qed.
Lemma compile_halts' : forall c, KK c -> forall b, exists f, compile f c b <> NoFuel.
Proof.
  intros c I0. pose proof (lex_acc _ _ (dm_length c)) as AC. remember (dm c) as m eqn:M. revert c I0 M. induction AC as [m _ IH]. intros c I0 -> b.
  destruct (has b (c_exprs c) || has b (c_ops c)) eqn:D; [exists 1; cbn [Compile.compile]; rewrite D; discriminate|].
  destruct (round_halts' c I0) as (f1 & F1); [intros c1 b1 I1 L1; eapply IH; eauto|].
  destruct (round (compile f1) c) as [c1|e1|w|] eqn:E; try congruence.
  - pose proof E as E'. apply p_round in E'; [|intros; eapply p_compile; eauto|auto]. destruct E' as (I1 & _ & L1). specialize (L1 eq_refl).
    destruct (IH _ L1 c1 I1 eq_refl b) as (f2 & F2). exists (S (f1 + f2)). cbn [Compile.compile]. rewrite D.
    rewrite (round_more P _ _ g intr ca mp order shuffle (compile f1) (compile (f1 + f2))); [| |rewrite E; discriminate].
    + rewrite E. cbn [obind]. rewrite (compile_more P _ _ g intr ca mp order shuffle f2 (f1 + f2)); auto. lia.
    + intros c2 b2. apply compile_more. lia.
  - exists (S f1). cbn [Compile.compile]. rewrite D, E. discriminate.
  - exists (S f1). cbn [Compile.compile]. rewrite D, E. discriminate.
Qed.
End R.
