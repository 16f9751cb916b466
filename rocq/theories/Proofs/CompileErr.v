(** When the compile loop has no error to report. *)
From Coq Require Import String List ZArith NArith Bool Arith Lia.
From Verif Require Import Model.Base Model.Value Model.Ast Model.Registry Model.AstGraph Model.TyBuild Model.Compile Spec.AstGraphSpec Spec.TyBuildSpec
  Proofs.RegistryProofs Proofs.AstGraphProofs Proofs.TyBuildBase Proofs.TyBuildNodes Proofs.TyBuildProofs.
From Verif Require Import Spec.CompileSpec Proofs.CompileProofs Proofs.CompileInv Proofs.CompileRuns.
From Verif Require Model.TyGraph Model.Locals Model.Infer Spec.TyGraphSpec Proofs.TyGraphProofs.
Import ListNotations.

(** Not that panic. *)
Definition tame {X} (r : out X) : Prop := r <> Crash NoError.
Lemma obind_tame : forall X Y (a : out X) (f : X -> out Y), tame a -> (forall x, a = Good x -> tame (f x)) -> tame (obind a f).
Proof. intros X Y [x|er|w|] f T F; cbn; try discriminate; [now apply F|]. intros E. apply T. injection E as ->. reflexivity. Qed.
Lemma sure_tame : forall X (r : res X), tame (sure r).
Proof. intros X [x|er|]; discriminate. Qed.
Lemma expect_tame : forall X (r : option X), tame (expect r).
Proof. intros X [x|]; discriminate. Qed.
Lemma good_tame : forall X (x : X), tame (Good x).
Proof. intros X x. discriminate. Qed.
Lemma bad_tame : forall X er, tame (@Bad X er).
Proof. intros X er. discriminate. Qed.
Lemma omapM_tame : forall X Y (f : X -> out Y) l, (forall x, In x l -> tame (f x)) -> tame (omapM f l).
Proof.
  induction l as [|x l IH]; intros H; cbn [omapM]; [apply good_tame|]. apply obind_tame; [apply H; now left|]. intros y _.
  apply obind_tame; [apply IH; intros z I; apply H; now right|]. intros z _. apply good_tame.
Qed.
Lemma ofilter_tame : forall X (f : X -> out bool) l, (forall x, In x l -> tame (f x)) -> tame (ofilter f l).
Proof.
  induction l as [|x l IH]; intros H; cbn [ofilter]; [apply good_tame|]. apply obind_tame; [apply H; now left|]. intros y _.
  apply obind_tame; [apply IH; intros z I; apply H; now right|]. intros z _. apply good_tame.
Qed.
#[local] Hint Resolve sure_tame expect_tame good_tame bad_tame : tm.

Section Err.
Variables (P A Q : Type) (s : defs) (e : expr) (root : tkey) (anon : list tkey) (g : graph) (tg0 : tg_t).
Hypothesis HS : start s e root anon = Ok (g, tg0).
Hypothesis HL : has_literal_types (df_types s).
Variable intr : comp P A Q -> nat -> tkey -> option (reply (tkey * P)).
Variable call_args : comp P A Q -> nat -> tkey -> option ((list A + cerr) * list ask).
Variable map_params : comp P A Q -> nat -> option ((injection Q + cerr) * list ask).
Variable order : Locals.lmap -> Locals.lmap.
Variable shuffle : list nat -> list nat.
Notation comp := (comp P A Q).
Notation cstep := (cstep P A).
Implicit Types c : comp.
Hypothesis HN : forall x t, node g x = Some (NExpr t) -> children g x <> [].
Notation inv := (inv P A Q g tg0 intr call_args map_params).
Notation calm := (calm P A Q g).
Notation compile := (compile g intr call_args map_params order shuffle).
Notation round := (round g intr call_args map_params order shuffle).
Notation hist := (hist P A Q g tg0).

Lemma apply_all_tame : forall cs c acc, tame (apply_all order c cs acc).
Proof.
  induction cs as [|[x|x] cs IH]; intros c acc; cbn [apply_all]; [apply good_tame| |].
  - destruct (TyGraph.apply_chg tkey_eqb (fst (c_tg c)) x) as [tg [b|er|]]; [apply IH|discriminate|discriminate].
  - destruct (Locals.apply_chg order (c_lg c) x) as [[b lg]|er|]; [apply IH|discriminate|discriminate].
Qed.
Lemma resolve_tame : forall c, tame (resolve c).
Proof. intros c. unfold resolve. destruct (TyGraph.exec_c _ _ _) as [st [b|er|]]; discriminate. Qed.
Lemma yes_no_tame : forall r : out (comp * bool), tame r -> tame (yes_no r).
Proof. intros r T. unfold yes_no. apply obind_tame; auto with tm. Qed.
Lemma assign_tame : forall c, tame (assign_variable_types g order c).
Proof.
  intros c. unfold assign_variable_types. apply obind_tame; [|intros; apply apply_all_tame]. apply omapM_tame. intros n _. unfold var_chgs.
  destruct (node g n) as [[]|]; auto with tm. destruct (multiple_at c n TyGraph.Out_); auto with tm. apply obind_tame; auto with tm.
Qed.
Lemma locals_tame : forall c, tame (insert_available_def_locals g map_params order c).
Proof.
  intros c. unfold insert_available_def_locals. apply obind_tame.
  - generalize (filter (fun d => negb (has d (c_params c))) (known_paths g c)). intros ds. generalize (@nil gchg) false. revert c.
    induction ds as [|d ds IH]; intros c cs b; cbn [locals_loop]; auto with tm. apply obind_tame; auto with tm. intros [[[ps| |]|er] asks] _; auto with tm.
    apply obind_tame; auto with tm. intros x _. apply obind_tame; auto with tm.
  - intros r _. apply obind_tame; [apply apply_all_tame|auto with tm].
Qed.
Lemma link_tame : forall c, tame (link_known_def_path_args g c).
Proof.
  intros c. unfold link_known_def_path_args. apply obind_tame.
  - apply ofilter_tame. intros d _. apply obind_tame; auto with tm.
  - intros ds _. generalize false. revert c. induction ds as [|d ds IH]; intros c b; cbn [link_loop]; auto with tm. apply obind_tame; auto with tm.
Qed.
Lemma block_tame : forall c n t, tame (compile_block g intr call_args c n t).
Proof.
  intros c n t. unfold compile_block. destruct (key_impl g n t) as [cmd|]; auto with tm. destruct (node g cmd) as [[]|]; try discriminate; [apply obind_tame; auto with tm|].
  apply obind_tame; auto with tm. intros x _. destruct (alookup Nat.eqb x (c_exprs c)); auto with tm. apply obind_tame; auto with tm. intros [[ps|er] asks] _; auto with tm.
  apply obind_tame; auto with tm.
Qed.
Lemma blocks_loop_tame : forall ns c cs dn er, tame (blocks_loop g intr call_args c ns cs dn er).
Proof.
  induction ns as [|n ns IH]; intros c cs dn er; cbn [blocks_loop]; auto with tm. apply obind_tame; auto with tm. intros t _. apply obind_tame; [apply block_tame|].
  intros r _. destruct (r_res r); apply IH.
Qed.
Lemma inputs_block_tame : forall c, tame (infer_inputs_block g intr call_args order c).
Proof.
  intros c. unfold infer_inputs_block. apply obind_tame.
  - apply ofilter_tame. intros n _. destruct (_ && _); auto with tm. apply obind_tame; auto with tm.
  - intros ns _. apply obind_tame; [|intros; apply yes_no_tame, apply_all_tame]. apply omapM_tame. intros n _. unfold failing_types. apply obind_tame; auto with tm.
    intros ts _. apply obind_tame; auto with tm. apply omapM_tame. intros t _. apply obind_tame; [apply block_tame|auto with tm].
Qed.

(** The panic, exactly. *)
Lemma no_error_iff : forall c, hist c -> calm c -> mapped map_params c -> (compile_blocks g intr call_args order c = Crash NoError <-> ready g c = []).
Proof.
  intros c H C MP. unfold compile_blocks. split; intros B.
  - destruct (blocks_loop g intr call_args c (ready g c) [] false None) as [[[[c1 cs] dn] er]|er|w|] eqn:L; cbn [obind] in B; try discriminate.
    2:{ exfalso. apply (blocks_loop_tame (ready g c) c [] false None). injection B as ->. exact L. }
    destruct (apply_all order c1 cs false) as [[c2 b]|er2|w|] eqn:AP; cbn [obind fst snd] in B; try discriminate.
    2:{ exfalso. apply (apply_all_tame cs c1 false). injection B as ->. exact AP. }
    destruct (dn || b) eqn:Z; [discriminate|]. destruct er; [discriminate|]. apply orb_false_iff in Z. destruct Z as (-> & ->).
    apply (blocks_loop_ok P A Q s e root anon g tg0 HS HL intr call_args map_params HN) in L; auto;
      [|intros n J; now apply ready_in in J|apply NoDup_filter, indices_nodup].
    destruct L as (_ & _ & _ & _ & _ & _ & _ & _ & _ & _ & L). destruct (ready g c) as [|n ns]; [reflexivity|]. exfalso. apply L; auto. right. discriminate.
  - rewrite B. reflexivity.
Qed.

Lemma populate_none : forall es c b c', populate_loop g c es b = (c', false) -> forall x, In x es -> stack_of g c x = None.
Proof.
  induction es as [|y es IH]; intros c b c' H x J; [destruct J|]. cbn [populate_loop] in H. destruct (stack_of g c y) eqn:E.
  - apply populate_true in H. discriminate.
  - destruct J as [<-|J]; [auto|]. eapply IH; eauto.
Qed.
Lemma settled_has : forall c n sd t, settles c n sd t -> has_ty_at c n sd = true.
Proof. intros c n sd t [Z|Z]; unfold has_ty_at, kn; rewrite Z; reflexivity. Qed.
Lemma stuck_chain : forall c l pre x t0 t, hist c -> calm c -> (forall o y, has_step c o y -> op_ok P A Q g intr call_args map_params c o y) ->
  node g x = Some (NExpr t0) -> children g x = pre ++ l -> l <> [] -> settles c (hd 0 l) TyGraph.In_ t -> ready g c = [] ->
  (forall o, In o l -> exists y, has_step c o y) /\ exists v, settles c x TyGraph.Out_ v.
Proof.
  intros c l. induction l as [|o l IH]; intros pre x t0 t H C OK N E NE I R; [congruence|]. cbn [hd] in I.
  assert (Y : exists y, has_step c o y).
  { unfold has_step. destruct (alookup Nat.eqb o (c_ops c)) as [y|] eqn:L; [eauto|]. exfalso. assert (J : In o (ready g c)); [|rewrite R in J; destruct J].
    apply filter_In. split.
    - apply in_indices. destruct (child_of_expr _ _ (made_g s e root anon g tg0 HS HN) x t0 o N) as (t' & N'); [rewrite E; apply in_or_app; right; now left|]. exists (NOp t'). auto.
    - unfold has. rewrite L. cbn. eapply settled_has; eauto. }
  destruct Y as (y & Y). destruct (OK o y Y) as (_ & t' & _ & Oo & _). destruct C as (C1 & C2) eqn:CC. destruct l as [|o2 l].
  - split; [intros o' [<-|[]]; eauto|]. exists (s_out y). destruct (C1 o x TyGraph.OO (s_out y)) as (F & _); [eapply c_last; eauto|]. exact (F Oo).
  - destruct (IH (pre ++ [o]) x t0 (s_out y)) as (Z1 & Z2); auto.
    + rewrite E, <- app_assoc. reflexivity.
    + discriminate.
    + cbn [hd]. assert (X : carries g o o2 TyGraph.OI).
      { apply c_pipe with (e := x) (t := t0) (i := length pre); [auto| |].
        - rewrite E, nth_error_app2, Nat.sub_diag by lia. reflexivity.
        - rewrite E, nth_error_app2 by lia. now replace (Datatypes.S (length pre) - length pre) with 1 by lia. }
      destruct (C1 _ _ _ (s_out y) X) as (F & _). exact (F Oo).
    + split; [|auto]. intros o' [<-|J]; eauto.
Qed.
Lemma all_some_full : forall (f : nat -> option cstep) l, (forall o, In o l -> exists y, f o = Some y) -> all_some (map f l) <> None.
Proof.
  intros f. induction l as [|o l IH]; intros H; [discriminate|]. cbn. destruct (H o (or_introl eq_refl)) as (y & ->).
  destruct (all_some (map f l)) eqn:E; [discriminate|]. exfalso. apply IH; [|auto]. intros o' J. apply H. now right.
Qed.
Lemma not_stuck : forall c x t0 t, inv c -> calm c -> snd (populate g c) = false -> node g x = Some (NExpr t0) -> settles c x TyGraph.In_ t ->
  has x (c_exprs c) = false -> ready g c <> [].
Proof.
  intros c x t0 t (H & OK & _) C PF N I U R. pose proof (HN _ _ N) as NE.
  destruct (stuck_chain c (children g x) [] x t0 t) as (S1 & v & S2); auto.
  - destruct (children g x) as [|o l] eqn:CH; [congruence|]. cbn [hd]. destruct (proj1 C x o TyGraph.II t) as (F & _); [eapply c_first; [exact N|now rewrite CH]|]. exact (F I).
  - unfold populate in PF. destruct (populate_loop g c _ false) as [c1 b] eqn:PL. cbn in PF. subst b.
    assert (J : stack_of g c x = None).
    { eapply populate_none; [exact PL|]. apply filter_In. split; [apply in_indices; exists (NExpr t0); auto|]. rewrite U. cbn. rewrite (settled_has _ _ _ _ I), (settled_has _ _ _ _ S2). reflexivity. }
    unfold stack_of in J. rewrite (ops_of_expr s e root anon g tg0 HS HN _ _ N) in J. revert J. now apply all_some_full.
Qed.

(** ** Without guesses of outputs *)
Hypothesis HQ : forall c n t r, intr c n t = Some r -> r_infer r = false.
Hypothesis HSH : forall l x, In x (shuffle l) -> In x l.

Lemma block_quiet : forall c n t r, compile_block g intr call_args c n t = Good r -> r_infer r = false.
Proof.
  intros c n t r H. unfold compile_block in H. destruct (key_impl g n t) as [cmd|]; [|now injection H as <-]. destruct (node g cmd) as [[]|]; try discriminate.
  - apply obind_good in H. destruct H as (r0 & E & H). apply expect_good in E. injection H as <-. exact (HQ _ _ _ _ E).
  - apply obind_good in H. destruct H as (x & _ & H). destruct (alookup Nat.eqb x (c_exprs c)); [|now injection H as <-].
    apply obind_good in H. destruct H as ([[ps|er] asks] & _ & H); [|now injection H as <-]. apply obind_good in H. destruct H as (u & _ & H). now injection H as <-.
Qed.
Lemma blocks_quiet : forall ns c cs dn er c' cs' dn' er', blocks_loop g intr call_args c ns cs dn er = Good (c', cs', dn', er') -> c_infer c' = c_infer c.
Proof.
  induction ns as [|n ns IH]; intros c cs dn er c' cs' dn' er' H; cbn [blocks_loop] in H; [now injection H as <- _ _ _|].
  apply obind_good in H. destruct H as (t & _ & H). apply obind_good in H. destruct H as (r & R & H). apply block_quiet in R. rewrite R in H.
  destruct (r_res r); apply IH in H; exact H.
Qed.
Lemma apply_quiet : forall cs c acc c' b, apply_all order c cs acc = Good (c', b) -> c_infer c' = c_infer c.
Proof.
  induction cs as [|[x|x] cs IH]; intros c acc c' b H; cbn [apply_all] in H; [now injection H as <- _| |].
  - destruct (TyGraph.apply_chg tkey_eqb (fst (c_tg c)) x) as [tg [b1|er|]]; try discriminate. now apply IH in H.
  - destruct (Locals.apply_chg order (c_lg c) x) as [[b1 lg]|er|]; try discriminate. now apply IH in H.
Qed.
Lemma resolve_quiet : forall c c', resolve c = Good c' -> c_infer c' = c_infer c.
Proof. intros c c' H. unfold resolve in H. destruct (TyGraph.exec_c _ _ _) as [st [b|er|]]; try discriminate. now injection H as <-. Qed.
Lemma populate_quiet : forall c c' b, populate g c = (c', b) -> c_infer c' = c_infer c.
Proof.
  intros c c' b. unfold populate. generalize (filter (fun x => negb (has x (c_exprs c)) && (has_ty_at c x TyGraph.In_ && has_ty_at c x TyGraph.Out_)) (TyBuild.indices g is_expr)).
  intros es. generalize false. revert c. induction es as [|x es IH]; intros c b0 H; cbn [populate_loop] in H; [now injection H as <- _|].
  destruct (stack_of g c x); now apply IH in H.
Qed.
Lemma assign_quiet : forall c c' b, assign_variable_types g order c = Good (c', b) -> c_infer c' = c_infer c.
Proof. intros c c' b H. unfold assign_variable_types in H. apply obind_good in H. destruct H as (l & _ & H). now apply apply_quiet in H. Qed.
Lemma locals_quiet : forall c c' b, insert_available_def_locals g map_params order c = Good (c', b) -> c_infer c' = c_infer c.
Proof.
  intros c c' b H. unfold insert_available_def_locals in H. apply obind_good in H. destruct H as ([[c1 cs] b1] & L & H). apply obind_good in H.
  destruct H as ([c2 b2] & H & E). cbn [fst snd] in *. injection E as <- _. apply apply_quiet in H. rewrite H. revert L.
  generalize (filter (fun d => negb (has d (c_params c))) (known_paths g c)). intros ds. generalize (@nil gchg) false. clear. revert c.
  induction ds as [|d ds IH]; intros c cs0 b0 H; cbn [locals_loop] in H; [now injection H as <- _ _|].
  apply obind_good in H. destruct H as ([[[ps| |]|er] asks] & _ & H); try discriminate; try (now apply IH in H).
  apply obind_good in H. destruct H as (x & _ & H). apply obind_good in H. destruct H as (lg & _ & H). now apply IH in H.
Qed.
Lemma link_quiet : forall c c' b, link_known_def_path_args g c = Good (c', b) -> c_infer c' = c_infer c.
Proof.
  intros c c' b H. unfold link_known_def_path_args in H. apply obind_good in H. destruct H as (ds & _ & H). revert H. generalize false. revert c.
  induction ds as [|d ds IH]; intros c b0 H; cbn [link_loop] in H; [now injection H as <- _|]. apply obind_good in H. destruct H as (r & _ & H). now apply IH in H.
Qed.
Lemma compile_blocks_quiet : forall c c' r, compile_blocks g intr call_args order c = Good (c', r) -> c_infer c' = c_infer c.
Proof.
  intros c c' r B. unfold compile_blocks in B. apply obind_good in B. destruct B as ([[[c1 cs] dn] er] & B & Z).
  apply obind_good in Z. destruct Z as ([c2 b] & AP & Z). cbn [fst snd] in Z. apply blocks_quiet in B. apply apply_quiet in AP.
  destruct (dn || b); [injection Z as <- _; congruence|]. destruct er; [injection Z as <- _; congruence|discriminate].
Qed.
Lemma inputs_block_quiet : forall c c' a, infer_inputs_block g intr call_args order c = Good (c', a) -> c_infer c' = c_infer c.
Proof.
  intros c c' a H. unfold infer_inputs_block in H. apply obind_good in H. destruct H as (ns & _ & H). apply obind_good in H. destruct H as (l & _ & H).
  unfold yes_no in H. apply obind_good in H. destruct H as ([c1 b] & H & E). injection E as <- _. now apply apply_quiet in H.
Qed.

Definition sound_rec (rec : comp -> nat -> out comp) : Prop := forall c b t0 t, inv c -> c_infer c = [] -> node g b = Some (NExpr t0) -> settles c b TyGraph.In_ t ->
  tame (rec c b) /\ forall c', rec c b = Good c' -> c_infer c' = [].
Lemma deep_node : forall (vd : nat -> Infer.verdict tkey comp) ns er rm n, Infer.round_loop vd ns er rm = Infer.DeepError n -> In n ns.
Proof.
  intros vd. induction ns as [|m ns IH]; intros er rm n H; cbn in H; [destruct rm; [destruct er as [[? ?]|]|]; discriminate|].
  destruct (vd m); try discriminate; try (right; eapply IH; eauto; fail). injection H as ->. now left.
Qed.
Lemma guess_sound : forall rec c ns, sound_rec rec -> inv c -> c_infer c = [] -> (forall n, In n ns -> exists t, node g n = Some (NExpr t)) ->
  tame (guess order rec c TyGraph.In_ (@Ok nat) ns) /\ forall c' a, guess order rec c TyGraph.In_ (@Ok nat) ns = Good (c', a) -> c_infer c' = [].
Proof.
  intros rec c ns R I QU N. unfold guess.
  assert (T : forall n t, In n ns -> trial order rec c TyGraph.In_ (@Ok nat) n t <> Ran (Crash NoError) /\
     forall c1, trial order rec c TyGraph.In_ (@Ok nat) n t = Ran (Good c1) -> c_infer c1 = []).
  { intros n t J. unfold trial. cbn [sure oblige]. destruct (apply_all order _ _ false) as [[c2 b2]|er|w|] eqn:AP; try (split; [discriminate|intros; discriminate]).
    2:{ split; [|intros; discriminate]. intros Z. injection Z as ->. now apply apply_all_tame in AP. }
    cbn [fst]. destruct (N n J) as (t0 & NN). pose proof AP as AP0. pose proof (apply_quiet _ _ _ _ _ AP) as Q2. cbn in Q2. apply apply_all_moves with (g := g) in AP; [|repeat constructor].
    destruct AP as (M & _). assert (M0 : moves P A Q g c c2) by (eapply moves_trans; [apply moves_same|exact M]; auto).
    assert (SN : settles c2 n TyGraph.In_ t).
    { cbn [apply_all] in AP0. destruct (TyGraph.apply_chg tkey_eqb _ _) as [tg [b1|e1|]] eqn:E; try discriminate. injection AP0 as <- _. unfold settles. cbn.
      eapply TyGraphProofs.claim_accepted; [exact tkey_eqb_eq| | |exact E]; [reflexivity|]. exact (kn_there P A Q s e root anon g tg0 HS HL HN c n _ TyGraph.In_ (proj1 I) NN). }
    destruct (R c2 n t0 t) as (R1 & R2); auto; [eapply inv_moves; eauto|congruence|]. split; [intros Z; apply R1; now injection Z|]. intros c1 Z. injection Z as Z. auto. }
  destruct (Infer.round_loop _ ns None []) as [c1|rm|n v|n|] eqn:E.
  - split; [discriminate|]. intros c' a Z. injection Z as <- _. apply loop_from in E. destruct E as (n & J & E). unfold Infer.test_compile_types in E. apply trials_from in E.
    destruct E as [E|(t & _ & E)]; [discriminate|]. apply (proj2 (T n t J)). destruct (trial order rec c TyGraph.In_ (@Ok nat) n t) as [|[c2|er|w|]]; cbn in E; try discriminate.
    + now injection E as ->.
    + destruct (er_deep er); discriminate.
  - split; [apply yes_no_tame, apply_all_tame|]. intros c' a Z. unfold yes_no in Z. apply obind_good in Z. destruct Z as ([c1 b] & Z & E1). injection E1 as <- _. apply apply_quiet in Z. cbn. congruence.
  - split; [discriminate|]. intros c' a Z. now injection Z as <- _.
  - apply deep_node in E. destruct (find _ _) as [x|] eqn:F; [|split; [discriminate|intros; discriminate]]. apply find_some in F. destruct F as (F & _).
    apply in_map_iff in F. destruct F as (t & F & _). destruct (T n t E) as (T1 & _). rewrite F in T1.
    destruct x as [|[c1|er|w|]]; try (split; [discriminate|intros c' a Z; try discriminate; now injection Z as <- _]).
    split; [intros Z; apply T1; now injection Z as ->|intros; discriminate].
  - split; [discriminate|]. intros c' a Z. now injection Z as <- _.
Qed.


Lemma filter_none : forall (l : list nat), rev (filter (fun n => existsb (Nat.eqb n) []) l) = [].
Proof. induction l as [|x l IH]; [reflexivity|exact IH]. Qed.
Lemma outputs_quiet : forall rec c, c_infer c = [] -> infer_outputs g order rec c = Good (c, No) \/ infer_outputs g order rec c = Good (c, Oops err_depth).
Proof.
  intros rec c QU. unfold infer_outputs. destruct (c_depth c <? 5); [left|now right]. rewrite QU, filter_none. cbn. destruct c; cbn in *. subst. reflexivity.
Qed.
Lemma inputs_expr_sound : forall rec c, sound_rec rec -> inv c -> c_infer c = [] ->
  tame (infer_inputs_expr g order shuffle rec c) /\ forall c' a, infer_inputs_expr g order shuffle rec c = Good (c', a) -> c_infer c' = [].
Proof.
  intros rec c R I QU. unfold infer_inputs_expr. destruct (c_depth c <? 5); [|split; [discriminate|intros c' a Z; now injection Z as <- _]].
  set (f := fun n => let! p := sure (path_from_root g n) in Good (length (filter (fun m => existsb (Nat.eqb m) (open_exprs g c)) p) =? 1)).
  destruct (ofilter f (shuffle (open_exprs g c))) as [ns|er|w|] eqn:F; cbn [obind]; try (split; [discriminate|intros; discriminate]).
  - apply guess_sound; auto. intros n J. apply (ofilter_in _ _ _ _ F) in J. destruct J as (J & _). apply HSH in J. unfold open_exprs in J. apply filter_In in J.
    destruct J as (J & _). apply in_indices in J. destruct J as ([] & N & Y); try discriminate. eauto.
  - split; [|intros; discriminate]. intros Z. injection Z as ->. revert F. apply ofilter_tame. intros n _. unfold f. apply obind_tame; auto with tm.
Qed.
Lemma guesses_sound : forall rec c er, sound_rec rec -> inv c -> c_infer c = [] ->
  tame (guesses g intr call_args order shuffle rec c er) /\ forall c', guesses g intr call_args order shuffle rec c er = Good c' -> c_infer c' = [].
Proof.
  intros rec c er R I QU. unfold guesses. pose proof (inputs_block_tame c) as T1. destruct (infer_inputs_block g intr call_args order c) as [[c1 a1]|e1|w|] eqn:H1; cbn [obind];
    try (split; [discriminate|intros; discriminate]); [|split; [intros Z; apply T1; now injection Z as ->|intros; discriminate]].
  pose proof (inputs_block_quiet _ _ _ H1) as Q1. rewrite QU in Q1. apply inputs_block_moves with (g := g) in H1. destruct H1 as (M1 & _).
  assert (I1 : inv c1) by (eapply inv_moves; eauto). clear T1 M1. destruct (inputs_expr_sound rec c1 R I1 Q1) as (T & K).
  assert (W : forall er1, tame (let! r := infer_inputs_expr g order shuffle rec c1 in match r with (c, Yes) => Good c | (c, Oops e) => Bad e | (c, No) => Bad er1 end) /\
     forall c', (let! r := infer_inputs_expr g order shuffle rec c1 in match r with (c, Yes) => Good c | (c, Oops e) => Bad e | (c, No) => Bad er1 end) = Good c' -> c_infer c' = []).
  { intros er1. destruct (infer_inputs_expr g order shuffle rec c1) as [[c3 a3]|e3|w|]; cbn [obind]; try (split; [discriminate|intros; discriminate]).
    - destruct a3; try (split; [discriminate|intros; discriminate]). split; [discriminate|]. intros c' Z. injection Z as <-. eapply K; reflexivity.
    - split; [intros Z; apply T; now injection Z as ->|intros; discriminate]. }
  destruct a1 as [| |e1]; [split; [discriminate|intros c' Z; now injection Z as <-]| |].
  all: destruct (outputs_quiet rec c1 Q1) as [->| ->]; cbn [obind]; cbv zeta; [apply W|cbn [er_hard err_depth]; split; [discriminate|intros; discriminate]].
Qed.
Lemma round_sound : forall rec c b t0 t, sound_rec rec -> (forall c b c', inv c -> rec c b = Good c' -> inv c' /\ grows c c') -> inv c -> c_infer c = [] ->
  node g b = Some (NExpr t0) -> settles c b TyGraph.In_ t -> has b (c_exprs c) = false ->
  tame (round rec c) /\ forall c', round rec c = Good c' -> c_infer c' = [].
Proof.
  intros rec c b t0 t R RG I QU N SB UB.
  assert (TT : forall X (r : out X), tame r -> forall w, r = Crash w -> w = Missing) by (intros X r T w ->; destruct w; [now destruct T|reflexivity]).
  unfold Compile.round. destruct (resolve c) as [c1|e1|w|] eqn:H1; cbn [obind]; try (split; [discriminate|intros; discriminate]); [|rewrite (TT _ _ (resolve_tame c) _ H1); split; [discriminate|intros; discriminate]].
  assert (C1 : calm c1) by (eapply resolve_calm; [exact HS|exact HL|exact (proj1 I)|exact H1]). pose proof (resolve_quiet _ _ H1) as Q1. rewrite QU in Q1.
  apply (resolve_moves P A Q g) in H1. destruct H1 as (M1 & _). assert (I1 : inv c1) by (eapply inv_moves; eauto).
  assert (S1 : settles c1 b TyGraph.In_ t) by (eapply moves_settles; eauto). assert (U1 : has b (c_exprs c1) = false) by (unfold has in *; now rewrite (proj1 (proj2 M1))).
  destruct (populate g c1) as [c2 b2] eqn:H2. pose proof (populate_quiet _ _ _ H2) as Q2. pose proof H2 as PF.
  apply (populate_ok P A Q s e root anon g tg0 HS intr call_args map_params HN) in H2; auto. destruct H2 as (I2 & _ & _ & Z2). destruct b2; [split; [discriminate|intros c' Z; injection Z as <-; congruence]|].
  specialize (Z2 eq_refl). subst c2. clear Q2 I2.
  assert (Z : forall m, moves P A Q g c1 m -> same_kn P A Q c1 m -> ready g m <> []).
  { intros m M SK. assert (U2 : has b (c_exprs m) = false) by (unfold has in *; now rewrite (proj1 (proj2 M))).
    apply (not_stuck m b t0 t); auto; [eapply inv_moves; eauto|eapply calm_same; eauto| |eapply moves_settles; eauto].
    assert (PQ : snd (populate g m) = snd (populate g c1)); [|rewrite PQ, PF; reflexivity].
    unfold populate. destruct M as (MO & MX & _).
    assert (FE : filter (fun x => negb (has x (c_exprs m)) && (has_ty_at m x TyGraph.In_ && has_ty_at m x TyGraph.Out_)) (TyBuild.indices g is_expr) =
                 filter (fun x => negb (has x (c_exprs c1)) && (has_ty_at c1 x TyGraph.In_ && has_ty_at c1 x TyGraph.Out_)) (TyBuild.indices g is_expr)).
    { apply filter_ext. intros x. unfold has, has_ty_at. now rewrite MX, !SK. }
    rewrite FE. generalize (filter (fun x => negb (has x (c_exprs c1)) && (has_ty_at c1 x TyGraph.In_ && has_ty_at c1 x TyGraph.Out_)) (TyBuild.indices g is_expr)) false.
    clear - MO. revert MO. revert c1 m. intros c1 m MO es. revert c1 m MO. induction es as [|x es IH]; intros c1 m MO b0; [reflexivity|]. cbn [populate_loop].
    assert (SO : stack_of g m x = stack_of g c1 x) by (unfold stack_of; now rewrite MO). rewrite SO. destruct (stack_of g c1 x); apply IH; auto. }
  destruct (assign_variable_types g order c1) as [[c3 b3]|e3|w|] eqn:H3; cbn [obind fst snd]; try (split; [discriminate|intros; discriminate]); [|rewrite (TT _ _ (assign_tame c1) _ H3); split; [discriminate|intros; discriminate]].
  pose proof (assign_quiet _ _ _ H3) as Q3. apply assign_moves in H3. destruct H3 as (M3 & S3). destruct b3; [split; [discriminate|intros c' W; injection W as <-; congruence]|]. specialize (S3 eq_refl).
  destruct (insert_available_def_locals g map_params order c3) as [[c4 b4]|e4|w|] eqn:H4; cbn [obind fst snd]; try (split; [discriminate|intros; discriminate]); [|rewrite (TT _ _ (locals_tame c3) _ H4); split; [discriminate|intros; discriminate]].
  pose proof (locals_quiet _ _ _ H4) as Q4. pose proof (locals_moves _ _ _ _ _ _ _ _ _ H4) as LM. destruct b4; [split; [discriminate|intros c' W; injection W as <-; congruence]|]. destruct (LM eq_refl) as (M4 & S4). clear H4 LM.
  destruct (link_known_def_path_args g c4) as [[c5 b5]|e5|w|] eqn:H5; cbn [obind fst snd]; try (split; [discriminate|intros; discriminate]); [|rewrite (TT _ _ (link_tame c4) _ H5); split; [discriminate|intros; discriminate]].
  pose proof (link_quiet _ _ _ H5) as Q5. apply (link_moves P A Q s e root anon g tg0 HS HN) in H5. destruct H5 as (M5 & S5). destruct b5; [split; [discriminate|intros c' W; injection W as <-; congruence]|]. specialize (S5 eq_refl).
  assert (M : moves P A Q g c1 c5) by (eapply moves_trans; [exact M3|eapply moves_trans; eauto]). assert (SK : same_kn P A Q c1 c5) by (eapply same_trans; [exact S3|eapply same_trans; eauto]).
  assert (I5 : inv c5) by (eapply inv_moves; eauto). assert (C5 : calm c5) by (eapply calm_same; eauto). specialize (Z c5 M SK).
  assert (Q5' : c_infer c5 = []) by congruence.
  destruct (compile_blocks g intr call_args order c5) as [[c6 r6]|e6|w|] eqn:H6; cbn [obind fst snd]; try (split; [discriminate|intros; discriminate]).
  2:{ split; [|intros; discriminate]. intros W. injection W as ->. apply no_error_iff in H6; auto; [exact (proj1 I5)|exact (proj2 (proj2 (proj2 I5)))]. }
  pose proof (compile_blocks_quiet _ _ _ H6) as Q6. rewrite Q5' in Q6. apply (compile_blocks_ok P A Q s e root anon g tg0 HS HL intr call_args map_params order HN) in H6; auto. destruct H6 as (I6 & _).
  destruct r6 as [e6|]; [|split; [discriminate|intros c' W; now injection W as <-]]. destruct (er_hard e6); [split; [discriminate|intros; discriminate]|]. now apply guesses_sound.
Qed.
Lemma compile_sound : forall fuel, sound_rec (compile fuel).
Proof.
  induction fuel as [|fuel IH]; intros c b t0 t I QU N SB; cbn [Compile.compile]; [split; [discriminate|intros; discriminate]|].
  destruct (has b (c_exprs c)) eqn:HB; cbn [orb]; [split; [discriminate|intros c' Z; now injection Z as <-]|].
  destruct (has b (c_ops c)); [split; [discriminate|intros c' Z; now injection Z as <-]|].
  assert (RG : forall c b c', inv c -> compile fuel c b = Good c' -> inv c' /\ grows c c') by (intros x y z; eapply compile_ok; eauto).
  destruct (round_sound (compile fuel) c b t0 t IH RG I QU N SB HB) as (T & K).
  destruct (round (compile fuel) c) as [c1|er|w|] eqn:R; cbn [obind]; try (split; [discriminate|intros; discriminate]); [|split; [intros Z; apply T; now injection Z as ->|intros; discriminate]].
  eapply round_ok in R; eauto. destruct R as (I1 & G1). apply (IH c1 b t0 t); auto. now apply (proj1 G1).
Qed.
Lemma root_sound : forall fuel seeds, compile_root g intr call_args map_params order shuffle fuel tg0 seeds <> Crash NoError.
Proof.
  intros fuel seeds. unfold compile_root. apply obind_tame.
  - unfold fresh. apply obind_tame; auto with tm. intros lg _. apply obind_tame; auto with tm.
  - intros c0 H0. apply (fresh_inv P A Q g tg0 intr call_args map_params) in H0. destruct H0 as (I0 & Q0 & _).
    apply obind_tame; [|intros c1 _; apply obind_tame; auto with tm]. destruct (m_root _ _ (made_g s e root anon g tg0 HS HN)) as (t0 & N).
    destruct (start_facts s e root anon g tg0 HS HL HN) as (_ & F & _). destruct (hist_keeps P A Q g tg0 c0 (proj1 I0)) as (_ & K).
    exact (proj1 (compile_sound fuel c0 0 t0 root I0 Q0 N (K _ _ F))).
Qed.
End Err.
