(** The compile loop comes to an end. *)
From Coq Require Import String List NArith Bool Arith Lia.
From Verif Require Import Model.Base Model.Value Model.Ast Model.Registry Model.AstGraph Model.TyBuild Model.Compile Proofs.TyBuildNodes
  Proofs.HaltLex Proofs.HaltLocals Proofs.HaltTypes Proofs.HaltBatch Spec.HaltSpec Proofs.CompileProofs Proofs.CompileInv Proofs.CompileRuns.
From Verif Require Model.TyGraph Model.Locals Model.Infer Spec.TyGraphSpec Proofs.TyGraphProofs Proofs.ResolveProofs Proofs.InferProofs.
Import ListNotations.

Section Halt.
Variables (P A Q : Type) (g : graph) (names : list str) (told : TyGraph.slot -> bool) (NB : nat).
Variable intr : comp P A Q -> nat -> tkey -> option (reply (tkey * P)).
Variable call_args : comp P A Q -> nat -> tkey -> option ((list A + cerr) * list ask).
Variable map_params : comp P A Q -> nat -> option ((injection Q + cerr) * list ask).
Variable order : Locals.lmap -> Locals.lmap.
Variable shuffle : list nat -> list nat.
Hypothesis HI : modest_intrinsics names told intr.
Hypothesis HC : modest_calls names told call_args.
Hypothesis HP : modest_params names told map_params.
Hypothesis HT : forall n, body g n -> told (n, TyGraph.In_) = true.
Hypothesis HB : forall e, In e (g_edges g) -> e_src e < NB /\ e_dst e < NB.
Notation comp := (comp P A Q).
Notation cstep := (cstep P A).
Implicit Types c : comp.
Notation inv := (HaltBatch.inv P A Q NB).
Notation tlv := (HaltBatch.tlv P A Q names told NB).
Notation frame := (HaltBatch.frame P A Q).
Notation fair := (HaltBatch.fair P A Q names told).
Notation compile := (compile g intr call_args map_params order shuffle).
Notation round := (round g intr call_args map_params order shuffle).
Notation compile_block := (compile_block g intr call_args).
Notation blocks_loop := (blocks_loop g intr call_args).

Definition missing V (p : anode -> bool) (m : list (nat * V)) : nat := length (filter (fun n => negb (has n m)) (TyBuild.indices g p)).
Definition high c : list nat := [5 - c_depth c; missing _ is_op (c_ops c); missing _ is_expr (c_exprs c); missing _ is_def (c_params c)].
Definition meas c : list nat := high c ++ tlv c.

Lemma meas_length : forall c, length (meas c) = 12.
Proof. reflexivity. Qed.
Lemma frame_high : forall c c', frame c c' -> high c' = high c.
Proof. intros c c' (O & E & D & N). unfold high. now rewrite O, E, D, N. Qed.
Lemma frame_le : forall c c', frame c c' -> lexeq (tlv c') (tlv c) -> lexeq (meas c') (meas c).
Proof. intros c c' F L. unfold meas. rewrite (frame_high _ _ F). apply lexeq_app; [apply lexeq_refl|reflexivity|exact L]. Qed.
Lemma frame_lt : forall c c', frame c c' -> lex (tlv c') (tlv c) -> lex (meas c') (meas c).
Proof. intros c c' F L. unfold meas. rewrite (frame_high _ _ F). now apply lex_under. Qed.
Lemma high_lt : forall c c', lex (high c') (high c) -> lex (meas c') (meas c).
Proof. intros c c' L. unfold meas. now apply lex_app. Qed.

Lemma has_ins : forall V n m (v : V) l, has n (ainsert Nat.eqb m v l) = (Nat.eqb m n || has n l).
Proof. intros. unfold has. rewrite nins. destruct (Nat.eqb m n); reflexivity. Qed.
Lemma missing_le : forall V p (m m' : list (nat * V)), (forall n, has n m = true -> has n m' = true) -> missing V p m' <= missing V p m.
Proof. intros V p m m' H. apply flt_le. intros n _ N. apply negb_true_iff in N. apply negb_true_iff. destruct (has n m) eqn:E; auto. now rewrite H in N. Qed.
Lemma missing_lt : forall V p (m m' : list (nat * V)) n, (forall n, has n m = true -> has n m' = true) ->
  In n (TyBuild.indices g p) -> has n m = false -> has n m' = true -> missing V p m' < missing V p m.
Proof.
  intros V p m m' n H I N N'. apply flt_lt.
  - intros k _ K. apply negb_true_iff in K. apply negb_true_iff. destruct (has k m) eqn:E; auto. now rewrite H in K.
  - exists n. now rewrite N, N'.
Qed.

(** What a phase does: nothing is larger; if something changed it is smaller. *)
Definition ok c c' (b : bool) : Prop := inv c' /\ lexeq (meas c') (meas c) /\ (b = true -> lex (meas c') (meas c)).
Lemma ok_refl : forall c, inv c -> ok c c false.
Proof. intros c I. split; [auto|]. split; [apply lexeq_refl|discriminate]. Qed.
Lemma ok_batch : forall cs c c' b, inv c -> Forall (fair c) cs -> apply_all order c cs false = Good (c', b) -> ok c c' b.
Proof.
  intros cs c c' b I F H. eapply batch in H; eauto. destruct H as (FR & I' & L & S). split; [auto|]. split; [now apply frame_le|]. intros B. apply frame_lt; auto.
Qed.

Lemma modest_fair : forall c l, Forall (modest names told c) l -> Forall (fair c) (map asked l).
Proof.
  intros c l F. apply Forall_forall. intros x J. apply in_map_iff in J. destruct J as (a & <- & J). rewrite Forall_forall in F. specialize (F a J).
  destruct a; cbn in *; auto.
Qed.
Lemma modest_same : forall c c' a, c_tg c' = c_tg c -> c_lg c' = c_lg c -> modest names told c' a -> modest names told c a.
Proof. intros c c' a T L M. unfold modest, loose in *. rewrite T, L in M. exact M. Qed.
Lemma fair_same : forall c c' x, c_tg c' = c_tg c -> c_lg c' = c_lg c -> fair c' x -> fair c x.
Proof. intros c c' x T L M. unfold HaltBatch.fair, loose in *. rewrite T, L in M. exact M. Qed.

Lemma apply_frame : forall cs c acc c' b, inv c -> apply_all order c cs acc = Good (c', b) -> frame c c' /\ inv c'.
Proof.
  induction cs as [|[x|x] cs IH]; intros c acc c' b I H; cbn [apply_all] in H; [injection H as <- <-; split; [apply frame_refl|auto]| |].
  - pose proof (TyGraphProofs.apply_chg_keeps tkey tkey_eqb tkey_eqb_eq (fst (c_tg c)) x) as (L & _).
    destruct (TyGraph.apply_chg tkey_eqb (fst (c_tg c)) x) as [tg [b0|e|]]; try discriminate. cbn [fst] in L.
    apply IH in H; [exact H|]. unfold HaltBatch.inv in *. cbn. lia.
  - destruct (Locals.apply_chg order (c_lg c) x) as [[b0 lg]|e|]; try discriminate. now apply IH in H.
Qed.

(** ** Resolution *)
Lemma ok_resolve : forall c c', inv c -> resolve c = Good c' -> ok c c' false.
Proof.
  intros c c' I H. unfold resolve in H. cbn [TyGraph.exec_c] in H. destruct (TyGraph.resolve_tg tkey_eqb _ (c_tg c)) as [[s' r]|] eqn:E; [|discriminate].
  destruct r as [[]|e|]; try discriminate. injection H as <-. split; [|split; [|discriminate]].
  - apply TyGraphProofs.resolve_keeps in E; [|exact tkey_eqb_eq]. destruct E as (L & _). unfold HaltBatch.inv in *. cbn. lia.
  - apply frame_le; [repeat split|]. unfold HaltBatch.tlv. cbn [c_tg c_lg set_tg]. apply lexeq_app; [eapply resolve_step; eauto|reflexivity|apply lexeq_refl].
Qed.
Lemma resolve_fuel : forall c, resolve c <> NoFuel.
Proof. intros c. unfold resolve. destruct (TyGraph.exec_c tkey_eqb (c_tg c) (TyGraph.CResolve tkey)) as [s [|e|]]; discriminate. Qed.

(** ** Expressions *)
Lemma populate_mono : forall es c b, let r := populate_loop g c es b in
  c_ops (fst r) = c_ops c /\ c_params (fst r) = c_params c /\ c_depth (fst r) = c_depth c /\ c_tg (fst r) = c_tg c /\ c_lg (fst r) = c_lg c /\
  (forall n, has n (c_exprs c) = true -> has n (c_exprs (fst r)) = true) /\
  (snd r = b /\ fst r = c \/ snd r = true /\ exists e, In e es /\ has e (c_exprs (fst r)) = true).
Proof.
  induction es as [|e es IH]; intros c b; cbn [populate_loop]; [cbn; intuition|]. destruct (stack_of g c e) as [stack|] eqn:E.
  - specialize (IH (set_exprs c (ainsert Nat.eqb e stack (c_exprs c))) true). cbn zeta in *. destruct IH as (O & PA & D & T & L & M & R).
    split; [exact O|]. split; [exact PA|]. split; [exact D|]. split; [exact T|]. split; [exact L|]. split.
    + intros n N. apply M. cbn [c_exprs set_exprs]. rewrite has_ins, N. apply orb_true_r.
    + right. split; [destruct R as [(R & _)|(R & _)]; exact R|]. exists e. split; [now left|]. apply M. cbn [c_exprs set_exprs]. now rewrite has_ins, Nat.eqb_refl.
  - specialize (IH c b). cbn zeta in *. destruct IH as (O & PA & D & T & L & M & R). repeat (split; [assumption|]).
    destruct R as [R|(R & x & J & N)]; [auto|]. right. split; [auto|]. exists x. split; [now right|auto].
Qed.
Lemma ok_populate : forall c c' b, inv c -> populate g c = (c', b) -> ok c c' b.
Proof.
  intros c c' b I H. unfold populate in H. pose proof (populate_mono (filter (fun e => negb (has e (c_exprs c)) && (has_ty_at c e TyGraph.In_ && has_ty_at c e TyGraph.Out_)) (TyBuild.indices g is_expr)) c false) as X.
  rewrite H in X. cbn [fst snd] in X. destruct X as (O & PA & D & T & L & M & R). destruct R as [(-> & ->)|(-> & e & J & N)]; [now apply ok_refl|].
  assert (S : lex (meas c') (meas c)).
  { apply high_lt. unfold high. rewrite O, D. constructor 2. constructor 2. constructor 1; [|reflexivity]. apply filter_In in J. destruct J as (J & Z).
    apply andb_true_iff in Z. destruct Z as (Z & _). apply negb_true_iff in Z. eapply missing_lt; eauto. }
  split; [unfold HaltBatch.inv in *; now rewrite T|]. split; [now right|auto].
Qed.

(** ** Variables *)
Lemma omapM_in : forall X Y (f : X -> out Y) l r, omapM f l = Good r -> forall y, In y r -> exists x, In x l /\ f x = Good y.
Proof.
  induction l as [|x l IH]; intros r H y J; cbn [omapM] in H; [injection H as <-; destruct J|].
  apply obind_good in H. destruct H as (b & E & H). apply obind_good in H. destruct H as (bs & E2 & H). injection H as <-.
  destruct J as [->|J]; [exists x; split; [now left|auto]|]. destruct (IH _ E2 _ J) as (z & Z1 & Z2). exists z. split; [now right|auto].
Qed.
Lemma obind_fuel : forall X Y (r : out X) (f : X -> out Y), r <> NoFuel -> (forall x, r = Good x -> f x <> NoFuel) -> obind r f <> NoFuel.
Proof. intros X Y [x|e|w|] f N F; cbn; try discriminate; [now apply F|congruence]. Qed.
Lemma omapM_fuel : forall X Y (f : X -> out Y) l, (forall x, In x l -> f x <> NoFuel) -> omapM f l <> NoFuel.
Proof.
  induction l as [|x l IH]; intros H; cbn [omapM]; [discriminate|]. apply obind_fuel; [apply H; now left|]. intros b _. apply obind_fuel; [apply IH; intros; apply H; now right|discriminate].
Qed.
Lemma ofilter_fuel : forall X (f : X -> out bool) l, (forall x, In x l -> f x <> NoFuel) -> ofilter f l <> NoFuel.
Proof.
  induction l as [|x l IH]; intros H; cbn [ofilter]; [discriminate|]. apply obind_fuel; [apply H; now left|]. intros b _. apply obind_fuel; [apply IH; intros; apply H; now right|discriminate].
Qed.
Lemma sure_fuel : forall X (r : res X), sure r <> NoFuel.
Proof. intros X [x|e|]; discriminate. Qed.
Lemma expect_fuel : forall X (r : option X), expect r <> NoFuel.
Proof. intros X [x|]; discriminate. Qed.
Lemma var_fair : forall c n l, var_chgs g c n = Good l -> Forall (fair c) l.
Proof.
  intros c n l H. unfold var_chgs in H. destruct (node g n) as [[]|]; try (injection H as <-; constructor).
  destruct (multiple_at c n TyGraph.Out_) eqn:M; [|injection H as <-; constructor]. apply multiple_loose in M. apply obind_good in H. destruct H as (r & _ & H). injection H as <-.
  destruct (snd r) as [[]|]; [| |constructor]; constructor; cbn; auto; constructor; cbn; auto.
Qed.
Lemma ok_vars : forall c c' b, inv c -> assign_variable_types g order c = Good (c', b) -> ok c c' b.
Proof.
  intros c c' b I H. unfold assign_variable_types in H. apply obind_good in H. destruct H as (l & E & H). eapply ok_batch; [exact I| |exact H].
  apply Forall_forall. intros x J. apply in_concat in J. destruct J as (y & J & K). eapply omapM_in in J; [|exact E]. destruct J as (n & _ & J). apply var_fair in J. rewrite Forall_forall in J. auto.
Qed.
Lemma vars_fuel : forall c, assign_variable_types g order c <> NoFuel.
Proof.
  intros c. unfold assign_variable_types. apply obind_fuel; [|intros; apply apply_fuel]. apply omapM_fuel. intros n _. unfold var_chgs.
  destruct (node g n) as [[]|]; try discriminate. destruct (multiple_at c n TyGraph.Out_); [|discriminate]. apply obind_fuel; [apply sure_fuel|discriminate].
Qed.

(** ** Parameters *)
Lemma known_def : forall c d, In d (known_paths g c) -> In d (TyBuild.indices g is_def).
Proof.
  intros c d J. unfold known_paths in J. apply in_flat_map in J. destruct J as (op & _ & J). assert (Z : predict_path g c op = Some d).
  { destruct (predict_path g c op); [|destruct J]. destruct J as [->|[]]. reflexivity. }
  clear J. assert (W : at_is g is_def d = true).
  { unfold predict_path in Z. destruct (ty_at c op TyGraph.In_) as [t|].
    - destruct (key_impl g op t) as [x|]; [|discriminate]. destruct (at_is g is_def x) eqn:E; [|discriminate]. now injection Z as <-.
    - destruct (cmds g op) as [|x rest]; [discriminate|]. destruct (at_is g is_def x) eqn:E; [|discriminate]. destruct rest; [|discriminate]. now injection Z as <-. }
  unfold TyBuild.indices. apply filter_In. unfold at_is in W. destruct (node g d) as [a|] eqn:E; [|discriminate]. split; [|exact W].
  apply in_seq. assert (d < length (g_nodes g)); [|lia]. apply nth_error_Some. unfold node in E. congruence.
Qed.
Lemma locals_mono : forall ds c cs b c' cs' b', locals_loop g map_params order c ds cs b = Good (c', cs', b') ->
  c_ops c' = c_ops c /\ c_exprs c' = c_exprs c /\ c_depth c' = c_depth c /\ c_tg c' = c_tg c /\
  (forall n, has n (c_params c) = true -> has n (c_params c') = true) /\
  (b' = b /\ c' = c /\ (Forall (fair c) cs -> Forall (fair c) cs') \/ b' = true /\ exists d, In d ds /\ has d (c_params c') = true).
Proof.
  induction ds as [|d ds IH]; intros c cs b c' cs' b' H; cbn [locals_loop] in H; [injection H as <- <- <-; intuition|].
  apply obind_good in H. destruct H as (ra & E & H). apply expect_good in E. pose proof (HP c d ra E) as MP. destruct ra as [[[ps| |]|e] asks]; cbn [snd] in MP; try discriminate.
  - apply obind_good in H. destruct H as (x & _ & H). apply obind_good in H. destruct H as (lg & _ & H). apply IH in H.
    cbn [c_ops c_exprs c_depth c_tg c_params set_lg set_params] in H. destruct H as (O & X & D & T & M & R).
    split; [auto|]. split; [auto|]. split; [auto|]. split; [auto|]. split.
    + intros n N. apply M. rewrite has_ins, N. apply orb_true_r.
    + right. split; [destruct R as [(R & _)|(R & _)]; auto|]. exists d. split; [now left|]. apply M. now rewrite has_ins, Nat.eqb_refl.
  - apply IH in H. destruct H as (O & X & D & T & M & R). repeat (split; [assumption|]). destruct R as [(R1 & R2 & R3)|(R & x & J & N)].
    + left. split; [auto|]. split; [auto|]. intros F. apply R3. apply Forall_app. split; [auto|now apply modest_fair].
    + right. split; [auto|]. exists x. split; [now right|auto].
  - apply IH in H. destruct H as (O & X & D & T & M & R). repeat (split; [assumption|]). destruct R as [(R1 & R2 & R3)|(R & x & J & N)].
    + left. split; [auto|]. split; [auto|]. intros F. apply R3. apply Forall_app. split; [auto|now apply modest_fair].
    + right. split; [auto|]. exists x. split; [now right|auto].
Qed.
Lemma ok_locals : forall c c' b, inv c -> insert_available_def_locals g map_params order c = Good (c', b) -> ok c c' b.
Proof.
  intros c c' b I H. unfold insert_available_def_locals in H. apply obind_good in H. destruct H as ([[c1 cs] b1] & E & H). apply obind_good in H.
  destruct H as ([c2 b2] & E2 & H). cbn [fst snd] in *. injection H as <- <-.
  apply locals_mono in E. destruct E as (O & X & D & T & M & R).
  destruct R as [(-> & -> & F)|(-> & d & J & N)].
  - cbn [orb]. eapply ok_batch; [exact I|apply F; constructor|exact E2].
  - apply filter_In in J. destruct J as (J & Z). apply negb_true_iff in Z. assert (I1 : inv c1) by (unfold HaltBatch.inv in *; now rewrite T).
    apply apply_frame in E2; auto. destruct E2 as ((O2 & X2 & P2 & D2) & I2).
    assert (S : lex (meas c2) (meas c)).
    { apply high_lt. unfold high. rewrite O2, X2, P2, D2, O, X, D. constructor 2. constructor 2. constructor 2. constructor 1; [|reflexivity].
      eapply missing_lt; eauto. eapply known_def; eauto. }
    split; [auto|]. split; [now right|auto].
Qed.
Lemma locals_fuel : forall ds c cs b, locals_loop g map_params order c ds cs b <> NoFuel.
Proof.
  induction ds as [|d ds IH]; intros c cs b; cbn [locals_loop]; [discriminate|]. apply obind_fuel; [apply expect_fuel|]. intros [[[ps| |]|e] asks] _; try discriminate; try apply IH.
  apply obind_fuel; [apply sure_fuel|]. intros x _. apply obind_fuel; [apply sure_fuel|]. intros lg _. apply IH.
Qed.

(** ** Links *)

Lemma rmapM_some : forall (v : list (option nat)) l, rmapM (fun x => match x with Some n => Ok n | None => Panic end) v = Ok l -> v = map Some l.
Proof.
  induction v as [|x v IH]; intros l H; cbn in H; [now injection H as <-|]. destruct x as [n|]; cbn in H; [|discriminate].
  destruct (rmapM _ v) as [l'| |] eqn:E; cbn in H; try discriminate. injection H as <-. cbn. f_equal. auto.
Qed.
Definition small (x : option nat) : Prop := match x with Some n => n < NB | None => True end.
Lemma set_at_small : forall i v n, Forall small v -> n < NB -> Forall small (set_at v i n).
Proof.
  induction i as [|i IH]; intros [|x v] n F N; cbn [set_at]; try (apply Forall_cons_iff in F; destruct F as (Fx & F)); repeat constructor; auto.
Qed.
Lemma args_bound : forall d l, get_args g d = Ok l -> Forall (fun a => a < NB) l.
Proof.
  intros d l H. unfold get_args, get_terms in H. apply rmapM_some in H.
  assert (X : forall es v, Forall small v -> (forall e, In e es -> In e (g_edges g)) ->
    Forall small (fold_left (fun v e => match e_rel e with RTerm i => set_at v (N.to_nat i) (e_src e) | _ => v end) es v)).
  { induction es as [|e es IH]; intros v F I; cbn [fold_left]; [exact F|]. apply IH; [|intros; apply I; now right].
    destruct (e_rel e); auto. apply set_at_small; [auto|]. apply HB. apply I. now left. }
  specialize (X (filter (fun e => Bool.eqb false (is_flag g (e_src e))) (edges_in g d)) [] (Forall_nil _)). rewrite H in X.
  assert (Y : Forall small (map Some l)).
  { apply X. intros e J. apply filter_In in J. destruct J as (J & _). unfold edges_in in J. apply filter_In in J. destruct J as (J & _). now apply in_rev in J. }
  rewrite Forall_map in Y. exact Y.
Qed.
Lemma parent_bound : forall d op, cmd_parent g d = Ok op -> op < NB.
Proof.
  intros d op H. unfold cmd_parent in H. destruct (find _ _) as [e|] eqn:E; [|discriminate]. injection H as <-. apply find_some in E. destruct E as (J & _).
  unfold edges_in in J. apply filter_In in J. destruct J as (J & _). apply in_rev in J. now apply HB.
Qed.
Lemma rmapM_nth : forall (args : list nat) is l, rmapM (fun i => match nth_error args i with Some a => Ok a | None => Panic end) is = Ok l -> forall a, In a l -> In a args.
Proof.
  induction is as [|i is IH]; intros l H a J; cbn in H; [injection H as <-; destruct J|]. destruct (nth_error args i) as [x|] eqn:E; cbn in H; [|discriminate].
  destruct (rmapM _ is) as [l'| |]; cbn in H; try discriminate. injection H as <-. destruct J as [->|J]; [eapply nth_error_In; eauto|eauto].
Qed.
Lemma links_mono : forall ds c b c' b', link_loop g c ds b = Good (c', b') -> frame c c' /\ c_lg c' = c_lg c /\
  length (TyGraph.nodes (fst (c_tg c'))) = length (TyGraph.nodes (fst (c_tg c))) /\
  (b' = b /\ c_tg c' = c_tg c \/ b' = true /\ n_absent NB (fst (c_tg c')) < n_absent NB (fst (c_tg c))).
Proof.
  induction ds as [|d ds IH]; intros c b c' b' H; cbn [link_loop] in H; [injection H as <- <-; split; [apply frame_refl|auto]|].
  apply obind_good in H. destruct H as ([tg b1] & E & H). apply sure_good in E. cbn [fst snd] in H. apply IH in H. destruct H as (F & L & N & R).
  unfold link_defs in E. destruct (link_list g [d]) as [[op args]| |] eqn:LL; cbn [rbind fst snd] in E; try discriminate. injection E as E.
  assert (OP : op < NB /\ Forall (fun a => a < NB) args).
  { unfold link_list in LL. destruct (cmd_parent g d) as [o| |] eqn:CP; cbn [rbind] in LL; try discriminate.
    destruct (get_args g d) as [al| |] eqn:GA; cbn [rbind] in LL; try discriminate. destruct (rmapM (def_params g) [d]) as [ps| |]; cbn [rbind] in LL; try discriminate.
    destruct (rmapM _ _) as [l| |] eqn:RM in LL; cbn [rbind] in LL; try discriminate. injection LL as <- <-. split; [eapply parent_bound; eauto|].
    apply args_bound in GA. rewrite Forall_forall in *. intros a J. apply GA. eapply rmapM_nth; eauto. }
  destruct OP as (OP & AR). apply link_step with (NB := NB) in E; auto. destruct E as (EN & ER). cbn [c_tg c_lg set_tg fst] in *.
  split; [exact F|]. split; [exact L|]. split; [congruence|].
  destruct ER as [(-> & ->)|(-> & ER)].
  - rewrite orb_false_r in R. destruct R as [(-> & R)|R]; [|auto]. left. split; [auto|]. rewrite R. now destruct (c_tg c).
  - right. destruct R as [(R1 & R2)|(R1 & R2)].
    + split; [rewrite R1; apply orb_true_r|]. rewrite R2. exact ER.
    + split; [auto|]. lia.
Qed.
Lemma ok_links : forall c c' b, inv c -> link_known_def_path_args g c = Good (c', b) -> ok c c' b.
Proof.
  intros c c' b I H. unfold link_known_def_path_args in H. apply obind_good in H. destruct H as (ds & _ & H). apply links_mono in H. destruct H as (F & L & N & R).
  assert (I' : inv c') by (unfold HaltBatch.inv in *; lia). split; [exact I'|]. destruct R as [(-> & R)|(-> & R)].
  - split; [|discriminate]. apply frame_le; auto. unfold HaltBatch.tlv. rewrite R, L. apply lexeq_refl.
  - assert (S : lex (meas c') (meas c)); [|split; [now right|auto]]. apply frame_lt; auto. unfold HaltBatch.tlv. apply lex_app; [|reflexivity]. now apply absent_tgv.
Qed.
Lemma link_loop_fuel : forall ds c b, link_loop g c ds b <> NoFuel.
Proof. induction ds as [|d ds IH]; intros c b; cbn [link_loop]; [discriminate|]. apply obind_fuel; [apply sure_fuel|]. intros x _. apply IH. Qed.
Lemma links_fuel : forall c, link_known_def_path_args g c <> NoFuel.
Proof.
  intros c. unfold link_known_def_path_args. apply obind_fuel; [|intros; apply link_loop_fuel]. apply ofilter_fuel. intros d _. apply obind_fuel; [apply sure_fuel|discriminate].
Qed.

(** ** Blocks *)
Lemma block_fuel : forall c op t, compile_block c op t <> NoFuel.
Proof.
  intros c op t. unfold Compile.compile_block. destruct (key_impl g op t) as [cmd|]; [|discriminate]. destruct (node g cmd) as [[]|]; try discriminate; [apply obind_fuel; [apply expect_fuel|discriminate]|].
  apply obind_fuel; [apply sure_fuel|]. intros x _. destruct (alookup Nat.eqb x (c_exprs c)); [|discriminate]. apply obind_fuel; [apply expect_fuel|]. intros [[|] asks] _; [|discriminate].
  apply obind_fuel; [apply expect_fuel|discriminate].
Qed.
Lemma block_fair : forall c op t r e, compile_block c op t = Good r -> r_res r = inr e -> Forall (fair c) (map asked (r_asks r)).
Proof.
  intros c op t r e H R. unfold Compile.compile_block in H. destruct (key_impl g op t) as [cmd|]; [|injection H as <-; constructor].
  destruct (node g cmd) as [[]|]; try discriminate.
  - apply obind_good in H. destruct H as (r0 & E0 & H). apply expect_good in E0. injection H as <-. cbn [r_res r_asks] in *. apply modest_fair. apply (HI _ _ _ _ E0). destruct (r_res r0) as [[u x]|er1] eqn:E; [discriminate|eauto].
  - apply obind_good in H. destruct H as (x & DE & H). apply sure_good in DE. destruct (alookup Nat.eqb x (c_exprs c)).
    + apply obind_good in H. destruct H as (ra & E & H). apply expect_good in E. pose proof (HC c cmd t ra E) as MC. destruct ra as [[pl|er1] asks]; cbn [fst snd] in MC.
      * apply obind_good in H. destruct H as (u & _ & H). injection H as <-. discriminate.
      * injection H as <-. cbn [r_asks]. apply modest_fair. apply MC. eauto.
    + injection H as <-. cbn. constructor; [|constructor]. left. apply HT. exists cmd. exact DE.
Qed.
Lemma blocks_mono : forall ns c cs d er c' cs' d' er', blocks_loop c ns cs d er = Good (c', cs', d', er') ->
  c_exprs c' = c_exprs c /\ c_params c' = c_params c /\ c_depth c' = c_depth c /\ c_tg c' = c_tg c /\ c_lg c' = c_lg c /\
  (forall n, has n (c_ops c) = true -> has n (c_ops c') = true) /\
  (d' = d /\ c_ops c' = c_ops c /\ (Forall (fair c) cs -> Forall (fair c) cs') \/ d' = true /\ exists n, In n ns /\ has n (c_ops c') = true).
Proof.
  induction ns as [|n ns IH]; intros c cs d er c' cs' d' er' H; cbn [Compile.blocks_loop] in H; [injection H as <- <- <- <-; intuition|].
  apply obind_good in H. destruct H as (t & _ & H). apply obind_good in H. destruct H as (r & E & H). destruct (r_res r) as [st|e] eqn:R.
  - apply IH in H. cbn [c_exprs c_params c_depth c_tg c_lg c_ops set_ops] in H. destruct H as (X & PA & D & T & L & M & Z).
    repeat (split; [assumption|]). split; [intros k K; apply M; rewrite has_ins, K; apply orb_true_r|]. right. split; [destruct Z as [(Z & _)|(Z & _)]; auto|].
    exists n. split; [now left|]. apply M. now rewrite has_ins, Nat.eqb_refl.
  - apply IH in H. set (c1 := if r_infer r then set_infer c (c_infer c ++ [n]) else c) in *.
    assert (S : c_exprs c1 = c_exprs c /\ c_params c1 = c_params c /\ c_depth c1 = c_depth c /\ c_tg c1 = c_tg c /\ c_lg c1 = c_lg c /\ c_ops c1 = c_ops c).
    { unfold c1. destruct (r_infer r); cbn; auto 10. }
    clearbody c1. destruct S as (S1 & S2 & S3 & S4 & S5 & S6). destruct H as (X & PA & D & T & L & M & Z).
    split; [congruence|]. split; [congruence|]. split; [congruence|]. split; [congruence|]. split; [congruence|]. split; [intros k K; apply M; now rewrite S6|].
    destruct Z as [(Z1 & Z2 & Z3)|(Z & k & J & K)].
    + left. split; [auto|]. split; [congruence|]. intros F.
      assert (F1 : Forall (fair c1) ((cs ++ map asked (r_asks r)) ++ (if r_adds r then [] else [Lg (Locals.Seal n)]))).
      { eapply Forall_impl; [intros x; apply fair_same with (c' := c); symmetry; [exact S4|exact S5]|]. apply Forall_app. split; [apply Forall_app; split; [auto|eapply block_fair; eauto]|].
        destruct (r_adds r); repeat constructor. }
      specialize (Z3 F1). eapply Forall_impl; [|exact Z3]. intros x. apply fair_same; auto.
    + right. split; [auto|]. exists k. split; [now right|auto].
Qed.
Lemma blocks_loop_fuel : forall ns c cs d er, blocks_loop c ns cs d er <> NoFuel.
Proof.
  induction ns as [|n ns IH]; intros c cs d er; cbn [Compile.blocks_loop]; [discriminate|]. apply obind_fuel; [apply expect_fuel|]. intros t _.
  apply obind_fuel; [apply block_fuel|]. intros r _. destruct (r_res r); apply IH.
Qed.
Lemma blocks_fuel : forall c, compile_blocks g intr call_args order c <> NoFuel.
Proof.
  intros c. unfold compile_blocks. apply obind_fuel; [apply blocks_loop_fuel|]. intros [[[c1 cs] d] er] _. apply obind_fuel; [apply apply_fuel|]. intros [c2 b] _.
  destruct (d || snd (c2, b)); [discriminate|]. destruct er; discriminate.
Qed.
Lemma ok_blocks : forall c c' er, inv c -> compile_blocks g intr call_args order c = Good (c', er) -> ok c c' (match er with None => true | Some _ => false end).
Proof.
  intros c c' er I H. unfold compile_blocks in H. apply obind_good in H. destruct H as ([[[c1 cs] d] er1] & E & H). apply obind_good in H. destruct H as ([c2 b] & E2 & H).
  cbn [fst snd] in H. apply blocks_mono in E. destruct E as (X & PA & D & T & L & M & Z). assert (I1 : inv c1) by (unfold HaltBatch.inv in *; now rewrite T).
  assert (c2 = c') as -> by (destruct (d || b); [now injection H|destruct er1; [now injection H|discriminate]]).
  destruct Z as [(-> & Z2 & Z3)|(-> & k & J & K)].
  - cbn [orb] in H. assert (F1 : frame c c1) by (repeat split; assumption). assert (TE : tlv c1 = tlv c) by (unfold HaltBatch.tlv; now rewrite T, L).
    destruct (batch P A Q order names told NB _ _ c _ _ I1 T L (Z3 (Forall_nil _)) E2) as (FR & I2 & L2 & S2). rewrite TE in *. pose proof (frame_trans _ _ _ _ _ _ F1 FR) as F2.
    split; [auto|]. split; [now apply frame_le|]. intros B. apply frame_lt; auto. apply S2. destruct b; [reflexivity|]. destruct er1; [injection H as <-; discriminate|discriminate].
  - cbn [orb] in H. injection H as <-. apply apply_frame in E2; auto. destruct E2 as ((O2 & X2 & P2 & D2) & I2). unfold ready in J. apply filter_In in J. destruct J as (J & Y).
    apply andb_true_iff in Y. destruct Y as (Y & _). apply negb_true_iff in Y.
    assert (S : lex (meas c') (meas c)); [|split; [auto|split; [now right|auto]]].
    apply high_lt. unfold high. rewrite O2, X2, P2, D2, X, PA, D. constructor 2. constructor 1; [|reflexivity]. eapply missing_lt; eauto.
Qed.

(** ** Guesses *)
Definition yes (a : ans) : bool := match a with Yes => true | _ => false end.
Lemma strikes_fair : forall c s l, Forall (fair c) (map (fun p : nat * tkey => Tg (strike s (fst p) (snd p))) l).
Proof. intros c s l. apply Forall_forall. intros x J. apply in_map_iff in J. destruct J as (p & <- & _). destruct s; exact Coq.Init.Logic.I. Qed.
Lemma ok_yes_no : forall c cs c' a, inv c -> Forall (fair c) cs -> yes_no (apply_all order c cs false) = Good (c', a) -> ok c c' (yes a).
Proof.
  intros c cs c' a I F H. unfold yes_no in H. apply obind_good in H. destruct H as ([c1 b] & E & H). injection H as <- <-. apply ok_batch in E; auto. cbn [fst snd].
  destruct b; exact E.
Qed.
Lemma ok_iblock : forall c c' a, inv c -> infer_inputs_block g intr call_args order c = Good (c', a) -> ok c c' (yes a).
Proof.
  intros c c' a I H. unfold infer_inputs_block in H. apply obind_good in H. destruct H as (ns & _ & H). apply obind_good in H. destruct H as (l & E & H).
  apply ok_yes_no in H; auto. apply Forall_forall. intros x J. apply in_concat in J. destruct J as (y & J & K). eapply omapM_in in J; [|exact E]. destruct J as (n & _ & J).
  unfold failing_types in J. apply obind_good in J. destruct J as (ts & _ & J). apply obind_good in J. destruct J as (rs & _ & J). injection J as <-.
  apply in_map_iff in K. destruct K as (p & <- & _). exact Coq.Init.Logic.I.
Qed.
Lemma iblock_fuel : forall c, infer_inputs_block g intr call_args order c <> NoFuel.
Proof.
  intros c. unfold infer_inputs_block. apply obind_fuel.
  - apply ofilter_fuel. intros n _. destruct (_ && _); [|discriminate]. apply obind_fuel; [apply sure_fuel|discriminate].
  - intros ns _. apply obind_fuel.
    + apply omapM_fuel. intros n _. unfold failing_types. apply obind_fuel; [apply expect_fuel|]. intros ts _. apply obind_fuel; [|discriminate].
      apply omapM_fuel. intros t _. apply obind_fuel; [apply block_fuel|discriminate].
    + intros l _. unfold yes_no. apply obind_fuel; [apply apply_fuel|discriminate].
Qed.

Section Trial.
Variable rec : comp -> nat -> out comp.
Hypothesis HR : forall c b c', rec c b = Good c' -> inv c -> inv c' /\ lexeq (meas c') (meas c).

Lemma chosen_some : forall (f : tkey -> Infer.outcome comp) types v rm i c, Infer.trials tkey_eqb f types v rm i = Infer.Chosen c ->
  i = Some c \/ exists t, In t types /\ f t = Infer.Compiles c.
Proof.
  intros f. induction types as [|t types IH]; intros v rm i c H; cbn [Infer.trials] in H.
  - destruct i as [x|]; [injection H as ->; auto|destruct rm; discriminate].
  - destruct (f t) as [|x| |] eqn:E.
    + apply IH in H. destruct H as [H|(u & J & H)]; [auto|right; exists u; split; [now right|auto]].
    + destruct i as [y|]; [discriminate|]. apply IH in H. destruct H as [H|(u & J & H)]; [injection H as ->; right; exists t; split; [now left|auto]|right; exists u; split; [now right|auto]].
    + apply IH in H. destruct H as [H|(u & J & H)]; [auto|right; exists u; split; [now right|auto]].
    + discriminate.
Qed.
Lemma deeper : forall c c1, c_depth c < 5 -> c_depth c1 = S (c_depth c) -> lex (meas c1) (meas c).
Proof. intros c c1 L D. apply high_lt. unfold high. constructor 1; [lia|reflexivity]. Qed.
Lemma ok_guess : forall c s brk ns c' a, inv c -> c_depth c < 5 -> guess order rec c s brk ns = Good (c', a) -> ok c c' (yes a).
Proof.
  intros c s brk ns c' a I D H. unfold guess in H. cbv zeta in H.
  set (f := fun n t => outcome_of (trial order rec c s brk n t)) in *.
  destruct (Infer.round_loop _ ns None []) as [x|rm|n v|n|] eqn:R.
  - injection H as <- <-. apply InferProofs.round_adopted in R. destruct R as (l & n & r & _ & R & _). unfold Infer.test_compile_types in R. apply chosen_some in R.
    destruct R as [R|(t & _ & R)]; [discriminate|]. unfold trial in R. destruct (sure (brk n)) as [b|e|w|]; try discriminate R.
    destruct (apply_all order (set_depth c (S (c_depth c))) [Tg (oblige s n t)] false) as [[c1 b1]|e|w|] eqn:E; cbn [outcome_of fst] in R; try discriminate.
    destruct (rec c1 b) as [c2|e|w|] eqn:E2; try discriminate; [|destruct (er_deep e); discriminate]. injection R as ->.
    apply apply_frame in E; [|exact I]. destruct E as ((_ & _ & _ & D1) & I1). destruct (HR _ _ _ E2 I1) as (I2 & L2).
    assert (S : lex (meas x) (meas c)); [|split; [auto|split; [now right|auto]]]. eapply lexeq_lex; [exact L2|]. apply deeper; auto.
  - apply ok_yes_no in H; auto. apply strikes_fair.
  - injection H as <- <-. now apply ok_refl.
  - destruct (find _ _) as [[|[x|e|w|]]|]; try discriminate. injection H as <- <-. now apply ok_refl.
  - injection H as <- <-. now apply ok_refl.
Qed.
Lemma meas_infer : forall c x, meas (set_infer c x) = meas c.
Proof. reflexivity. Qed.
Lemma ok_outputs : forall c c' a, inv c -> infer_outputs g order rec c = Good (c', a) -> ok c c' (yes a).
Proof.
  intros c c' a I H. unfold infer_outputs in H. destruct (Nat.ltb_spec (c_depth c) 5) as [L|L].
  - apply ok_guess in H; auto.
  - injection H as <- <-. now apply ok_refl.
Qed.
Lemma ok_inputs : forall c c' a, inv c -> infer_inputs_expr g order shuffle rec c = Good (c', a) -> ok c c' (yes a).
Proof.
  intros c c' a I H. unfold infer_inputs_expr in H. destruct (Nat.ltb_spec (c_depth c) 5) as [L|L].
  - apply obind_good in H. destruct H as (ns & _ & H). apply ok_guess in H; auto.
  - injection H as <- <-. now apply ok_refl.
Qed.
Lemma ok_guesses : forall c er c', inv c -> guesses g intr call_args order shuffle rec c er = Good c' -> ok c c' true.
Proof.
  intros c er c' I H. unfold guesses in H. apply obind_good in H. destruct H as ([c1 a1] & E1 & H). apply ok_iblock in E1; auto. destruct E1 as (I1 & L1 & S1).
  assert (G : forall er, (let! r := infer_outputs g order rec c1 in
      match r with
      | (c, Yes) => Good c
      | (c, a) =>
        let err := match a with Oops e => e | _ => er end in
        if match a with Oops e => er_hard e | _ => false end then Bad err else
        let! r := infer_inputs_expr g order shuffle rec c in
        match r with
        | (c, Yes) => Good c
        | (c, Oops e) => Bad e
        | (c, No) => Bad err
        end
      end) = Good c' -> ok c c' true).
  { intros er' G. apply obind_good in G. destruct G as ([c2 a2] & E2 & G). apply ok_outputs in E2; auto. destruct E2 as (I2 & L2 & S2).
    assert (L3 : lexeq (meas c2) (meas c)) by (eapply lexeq_trans; eauto).
    assert (W : forall er2, (let! r := infer_inputs_expr g order shuffle rec c2 in match r with (c, Yes) => Good c | (c, Oops e) => Bad e | (c, No) => Bad er2 end) = Good c' -> ok c c' true).
    { intros er2 W. apply obind_good in W. destruct W as ([c3 a3] & E3 & W). apply ok_inputs in E3; auto. destruct E3 as (I3 & L4 & S3). destruct a3; try discriminate. injection W as <-.
      assert (X : lex (meas c3) (meas c)) by (eapply lex_lexeq; [apply S3; reflexivity|exact L3]). split; [auto|split; [now right|auto]]. }
    destruct a2 as [| |e2]; cbn zeta in G.
    - injection G as <-. assert (X : lex (meas c2) (meas c)) by (eapply lex_lexeq; [apply S2; reflexivity|exact L1]). split; [auto|split; [now right|auto]].
    - apply W in G. exact G.
    - destruct (er_hard e2); [discriminate|]. apply W in G. exact G. }
  destruct a1 as [| |e1]; cbn zeta in H.
  - injection H as <-. split; [auto|]. split; [auto|]. intros _. apply S1. reflexivity.
  - apply G in H. exact H.
  - apply G in H. exact H.
Qed.
Lemma ok_round : forall c c', inv c -> round rec c = Good c' -> ok c c' true.
Proof.
  intros c c' I H. unfold Compile.round in H. apply obind_good in H. destruct H as (c1 & E & H). apply ok_resolve in E; auto. destruct E as (I1 & L1 & _).
  assert (TR : forall a c2 b, lexeq (meas a) (meas c) -> ok a c2 b -> ok c c2 b).
  { intros a c2 b L (Z1 & Z2 & Z3). split; [auto|]. split; [eapply lexeq_trans; eauto|]. intros B. eapply lex_lexeq; eauto. }
  destruct (populate g c1) as [c2 b2] eqn:E2. apply ok_populate in E2; auto. apply (TR c1) in E2; auto. destruct b2; [injection H as <-; exact E2|]. destruct E2 as (I2 & L2 & _).
  apply obind_good in H. destruct H as ([c3 b3] & E3 & H). apply ok_vars in E3; auto. apply (TR c2) in E3; auto. cbn [fst snd] in H. destruct b3; [injection H as <-; exact E3|]. destruct E3 as (I3 & L3 & _).
  apply obind_good in H. destruct H as ([c4 b4] & E4 & H). apply ok_locals in E4; auto. apply (TR c3) in E4; auto. cbn [fst snd] in H. destruct b4; [injection H as <-; exact E4|]. destruct E4 as (I4 & L4 & _).
  apply obind_good in H. destruct H as ([c5 b5] & E5 & H). apply ok_links in E5; auto. apply (TR c4) in E5; auto. cbn [fst snd] in H. destruct b5; [injection H as <-; exact E5|]. destruct E5 as (I5 & L5 & _).
  apply obind_good in H. destruct H as ([c6 b6] & E6 & H). apply ok_blocks in E6; auto. apply (TR c5) in E6; auto. cbn [fst snd] in H. destruct b6 as [e|]; [|injection H as <-; exact E6]. destruct E6 as (I6 & L6 & _).
  destruct (er_hard e); [discriminate|]. apply ok_guesses in H; auto. apply (TR c6) in H; auto.
Qed.
End Trial.

Lemma compile_le : forall f c b c', compile f c b = Good c' -> inv c -> inv c' /\ lexeq (meas c') (meas c).
Proof.
  induction f as [|f IH]; intros c b c' H I; cbn [Compile.compile] in H; [discriminate|]. destruct (_ || _); [injection H as <-; split; [auto|apply lexeq_refl]|].
  apply obind_good in H. destruct H as (c1 & E & H). apply ok_round in E; auto. destruct E as (I1 & L1 & _). apply IH in H; auto. destruct H as (I2 & L2).
  split; [auto|eapply lexeq_trans; eauto].
Qed.

(** ** The end *)
Lemma deep_in : forall (vd : nat -> Infer.verdict tkey comp) ns er rm n, Infer.round_loop vd ns er rm = Infer.DeepError n -> In n ns.
Proof.
  intros vd. induction ns as [|m ns IH]; intros er rm n H; cbn [Infer.round_loop] in H.
  - destruct rm; [destruct er as [[]|]|]; discriminate.
  - destruct (vd m); try discriminate; try (right; eapply IH; exact H). injection H as ->. now left.
Qed.
Lemma guess_halts : forall c s brk ns, inv c -> (forall c1 b, inv c1 -> c_depth c1 = S (c_depth c) -> exists f, compile f c1 b <> NoFuel) ->
  exists f, guess order (compile f) c s brk ns <> NoFuel.
Proof.
  intros c s brk ns I H.
  assert (T1 : forall n t, exists f, forall f', f <= f' -> trial order (compile f') c s brk n t <> Ran NoFuel).
  { intros n t. unfold trial. destruct (sure (brk n)) as [b|e|w|] eqn:EB; try (exists 0; intros; discriminate).
    destruct (apply_all order (set_depth c (S (c_depth c))) [Tg (oblige s n t)] false) as [[c1 b1]|e|w|] eqn:E; try (exists 0; intros; discriminate).
    - apply apply_frame in E; [|exact I]. destruct E as ((_ & _ & _ & D) & I1). destruct (H c1 b I1 D) as (f & F). exists f. intros f' L Z. cbn [fst] in Z. injection Z as Z.
      apply F. rewrite <- Z. symmetry. apply compile_more; auto.
    - exfalso. eapply apply_fuel; eauto. }
  assert (T2 : forall n ts, exists f, forall f', f <= f' -> forall t, In t ts -> trial order (compile f') c s brk n t <> Ran NoFuel).
  { intros n. induction ts as [|t ts (f1 & F1)]; [exists 0; intros f' _ t []|]. destruct (T1 n t) as (f2 & F2). exists (f1 + f2). intros f' L u [<-|J]; [apply F2; lia|apply F1; [lia|auto]]. }
  assert (T3 : forall ms, exists f, forall f', f <= f' -> forall n, In n ms -> forall t, In t (match tys_at c n s with Some ts => ts | None => [] end) -> trial order (compile f') c s brk n t <> Ran NoFuel).
  { induction ms as [|n ms (f1 & F1)]; [exists 0; intros f' _ n []|]. destruct (T2 n (match tys_at c n s with Some ts => ts | None => [] end)) as (f2 & F2).
    exists (f1 + f2). intros f' L m [<-|J]; [apply F2; lia|apply F1; [lia|auto]]. }
  destruct (T3 ns) as (f & F). exists f. specialize (F f (le_n _)). unfold guess. cbv zeta.
  destruct (Infer.round_loop _ ns None []) as [x|rm|n v|n|] eqn:R; try discriminate.
  - unfold yes_no. apply obind_fuel; [apply apply_fuel|discriminate].
  - apply deep_in in R. destruct (find _ _) as [[|[x|e|w|]]|] eqn:FD; try discriminate. exfalso. apply find_some in FD. destruct FD as (J & _). apply in_map_iff in J.
    destruct J as (t & E & J). eapply F; eauto.
Qed.
Lemma round_halts : forall c, inv c -> (forall c1 b, inv c1 -> lex (meas c1) (meas c) -> exists f, compile f c1 b <> NoFuel) ->
  exists f, round (compile f) c <> NoFuel.
Proof.
  intros c I H.
  assert (GH : forall c1 s brk ns, inv c1 -> lexeq (meas c1) (meas c) -> c_depth c1 < 5 -> exists f, guess order (compile f) c1 s brk ns <> NoFuel).
  { intros c1 s brk ns I1 L D. apply guess_halts; [auto|]. intros c2 b I2 D2. apply H; auto. eapply lex_lexeq; [apply deeper; eauto|exact L]. }
  assert (OH : forall c1, inv c1 -> lexeq (meas c1) (meas c) -> exists f, infer_outputs g order (compile f) c1 <> NoFuel).
  { intros c1 I1 L. unfold infer_outputs. destruct (Nat.ltb_spec (c_depth c1) 5) as [D|D]; [|exists 0; discriminate]. apply GH; auto. }
  assert (IH : forall c1, inv c1 -> lexeq (meas c1) (meas c) -> exists f, infer_inputs_expr g order shuffle (compile f) c1 <> NoFuel).
  { intros c1 I1 L. unfold infer_inputs_expr. destruct (Nat.ltb_spec (c_depth c1) 5) as [D|D]; [|exists 0; discriminate]. cbv zeta.
    match goal with |- exists f, obind ?r _ <> _ => destruct r as [ns|e|w|] eqn:E; cbn [obind]; try (exists 0; discriminate) end; [apply GH; auto|].
    exfalso. eapply ofilter_fuel; [|exact E]. intros n _. apply obind_fuel; [apply sure_fuel|discriminate]. }
  assert (MO : forall f f' c1, f <= f' -> infer_outputs g order (compile f) c1 <> NoFuel -> infer_outputs g order (compile f') c1 = infer_outputs g order (compile f) c1).
  { intros f f' c1 L. apply outputs_more. intros c2 b. apply compile_more. exact L. }
  assert (MI : forall f f' c1, f <= f' -> infer_inputs_expr g order shuffle (compile f) c1 <> NoFuel -> infer_inputs_expr g order shuffle (compile f') c1 = infer_inputs_expr g order shuffle (compile f) c1).
  { intros f f' c1 L. apply inputs_more. intros c2 b. apply compile_more. exact L. }
  assert (GS : forall c1 er, inv c1 -> lexeq (meas c1) (meas c) -> exists f, guesses g intr call_args order shuffle (compile f) c1 er <> NoFuel).
  { intros c1 er I1 L1. unfold guesses. destruct (infer_inputs_block g intr call_args order c1) as [[c2 a2]|e|w|] eqn:E; cbn [obind]; try (exists 0; discriminate); [|exfalso; eapply iblock_fuel; eauto].
    apply ok_iblock in E; auto. destruct E as (I2 & L2 & _). assert (L2' : lexeq (meas c2) (meas c)) by (eapply lexeq_trans; eauto).
    assert (REST : forall er, exists f, (let! r := infer_outputs g order (compile f) c2 in
      match r with
      | (c, Yes) => Good c
      | (c, a) =>
        let err := match a with Oops e => e | _ => er end in
        if match a with Oops e => er_hard e | _ => false end then Bad err else
        let! r := infer_inputs_expr g order shuffle (compile f) c in
        match r with
        | (c, Yes) => Good c
        | (c, Oops e) => Bad e
        | (c, No) => Bad err
        end
      end) <> NoFuel).
    { intros er'. destruct (OH c2 I2 L2') as (f1 & F1). destruct (infer_outputs g order (compile f1) c2) as [[c3 a3]|e|w|] eqn:E3; try congruence.
      2, 3: exists f1; rewrite E3; discriminate.
      pose proof E3 as E3'. apply ok_outputs in E3'; [|intros; eapply compile_le; eauto|auto]. destruct E3' as (I3 & L3 & _).
      destruct (IH c3 I3 (lexeq_trans _ _ _ L3 L2')) as (f2 & F2). exists (f1 + f2). rewrite (MO f1 (f1 + f2)) by (try lia; rewrite E3; discriminate). rewrite E3. cbn [obind].
      destruct a3 as [| |e3]; cbv zeta; [discriminate| |destruct (er_hard e3); [discriminate|]].
      all: rewrite (MI f2 (f1 + f2)) by (auto; lia); apply obind_fuel; [auto|]; intros [c4 [| |e4]] _; discriminate. }
    destruct a2 as [| |e2]; [exists 0; discriminate| |]; apply REST. }
  unfold Compile.round.
  destruct (resolve c) as [c1|e|w|] eqn:E1; cbn [obind]; try (exists 0; discriminate); [|exfalso; eapply resolve_fuel; eauto].
  apply ok_resolve in E1; auto. destruct E1 as (I1 & L1 & _).
  destruct (populate g c1) as [c2 b2] eqn:E2. apply ok_populate in E2; auto. destruct E2 as (I2 & L2 & _). apply (fun x => lexeq_trans _ _ _ x L1) in L2.
  destruct b2; [exists 0; discriminate|].
  destruct (assign_variable_types g order c2) as [[c3 b3]|e|w|] eqn:E3; cbn [obind fst snd]; try (exists 0; discriminate); [|exfalso; eapply vars_fuel; eauto].
  apply ok_vars in E3; auto. destruct E3 as (I3 & L3 & _). apply (fun x => lexeq_trans _ _ _ x L2) in L3. destruct b3; [exists 0; discriminate|].
  destruct (insert_available_def_locals g map_params order c3) as [[c4 b4]|e|w|] eqn:E4; cbn [obind fst snd]; try (exists 0; discriminate).
  2: { exfalso. revert E4. unfold insert_available_def_locals. apply obind_fuel; [apply locals_fuel|]. intros r _. apply obind_fuel; [apply apply_fuel|discriminate]. }
  apply ok_locals in E4; auto. destruct E4 as (I4 & L4 & _). apply (fun x => lexeq_trans _ _ _ x L3) in L4. destruct b4; [exists 0; discriminate|].
  destruct (link_known_def_path_args g c4) as [[c5 b5]|e|w|] eqn:E5; cbn [obind fst snd]; try (exists 0; discriminate); [|exfalso; eapply links_fuel; eauto].
  apply ok_links in E5; auto. destruct E5 as (I5 & L5 & _). apply (fun x => lexeq_trans _ _ _ x L4) in L5. destruct b5; [exists 0; discriminate|].
  destruct (compile_blocks g intr call_args order c5) as [[c6 b6]|e|w|] eqn:E6; cbn [obind fst snd]; try (exists 0; discriminate); [|exfalso; eapply blocks_fuel; eauto].
  apply ok_blocks in E6; auto. destruct E6 as (I6 & L6 & _). apply (fun x => lexeq_trans _ _ _ x L5) in L6. destruct b6 as [er|]; [|exists 0; discriminate].
  destruct (er_hard er); [exists 0; discriminate|]. apply GS; auto.
Qed.
Lemma compile_halts : forall c, inv c -> forall b, exists f, compile f c b <> NoFuel.
Proof.
  intros c I. pose proof (lex_acc _ _ (meas_length c)) as AC. remember (meas c) as m eqn:M. revert c I M. induction AC as [m _ IH]. intros c I -> b.
  destruct (has b (c_exprs c) || has b (c_ops c)) eqn:D; [exists 1; cbn [Compile.compile]; rewrite D; discriminate|].
  destruct (round_halts c I) as (f1 & F1); [intros c1 b1 I1 L1; eapply IH; eauto|].
  destruct (round (compile f1) c) as [c1|e|w|] eqn:E; try congruence.
  - pose proof E as E'. apply ok_round in E'; [|intros; eapply compile_le; eauto|auto]. destruct E' as (I1 & _ & L1). specialize (L1 eq_refl).
    destruct (IH _ L1 c1 I1 eq_refl b) as (f2 & F2). exists (S (f1 + f2)). cbn [Compile.compile]. rewrite D.
    rewrite (round_more P A Q g intr call_args map_params order shuffle (compile f1) (compile (f1 + f2))); [| |rewrite E; discriminate].
    + rewrite E. cbn [obind]. rewrite (compile_more P A Q g intr call_args map_params order shuffle f2 (f1 + f2)); auto. lia.
    + intros c2 b2. apply compile_more. lia.
  - exists (S f1). cbn [Compile.compile]. rewrite D, E. discriminate.
  - exists (S f1). cbn [Compile.compile]. rewrite D, E. discriminate.
Qed.
End Halt.

Section Root.
Variables (P A Q : Type) (g : graph) (names : list str) (told : TyGraph.slot -> bool).
Variable intr : comp P A Q -> nat -> tkey -> option (reply (tkey * P)).
Variable call_args : comp P A Q -> nat -> tkey -> option ((list A + cerr) * list ask).
Variable map_params : comp P A Q -> nat -> option ((injection Q + cerr) * list ask).
Variable order : Locals.lmap -> Locals.lmap.
Variable shuffle : list nat -> list nat.
Hypothesis HI : modest_intrinsics names told intr.
Hypothesis HC : modest_calls names told call_args.
Hypothesis HP : modest_params names told map_params.
Hypothesis HT : forall n, body g n -> told (n, TyGraph.In_) = true.

Lemma edges_bounded : forall es : list edge, exists k, forall e, In e es -> e_src e < k /\ e_dst e < k.
Proof.
  induction es as [|e es (k & K)]; [exists 0; intros e []|]. exists (S (e_src e + e_dst e + k)). intros x [<-|J]; [lia|]. specialize (K x J). lia.
Qed.
Lemma compile_stops : forall c b, exists f, forall f', f <= f' ->
  compile g intr call_args map_params order shuffle f' c b <> NoFuel /\
  compile g intr call_args map_params order shuffle f' c b = compile g intr call_args map_params order shuffle f c b.
Proof.
  intros c b. destruct (edges_bounded (g_edges g)) as (k & K).
  destruct (compile_halts P A Q g names told (k + length (TyGraph.nodes (fst (c_tg c)))) intr call_args map_params order shuffle HI HC HP HT) with (c := c) (b := b) as (f & F).
  - intros e J. specialize (K e J). lia.
  - unfold HaltBatch.inv. lia.
  - exists f. intros f' L. rewrite (compile_more P A Q g intr call_args map_params order shuffle f f'); auto.
Qed.
Lemma root_stops : forall tg seeds, exists f, forall f', f <= f' ->
  compile_root g intr call_args map_params order shuffle f' tg seeds <> NoFuel /\
  compile_root g intr call_args map_params order shuffle f' tg seeds = compile_root g intr call_args map_params order shuffle f tg seeds.
Proof.
  intros tg seeds. unfold compile_root. destruct (fresh P A Q g order tg seeds) as [c|e|w|] eqn:E; cbn [obind].
  - destruct (compile_stops c 0) as (f & F). exists f. intros f' L. destruct (F f' L) as (F1 & F2). rewrite F2. split; [|reflexivity].
    rewrite F2 in F1. apply obind_fuel; [exact F1|]. intros x _. apply obind_fuel; [apply expect_fuel|discriminate].
  - exists 0. intros. split; [discriminate|reflexivity].
  - exists 0. intros. split; [discriminate|reflexivity].
  - exfalso. revert E. unfold fresh. apply obind_fuel; [apply sure_fuel|]. intros lg _. apply obind_fuel; [apply sure_fuel|]. intros lg2 _. discriminate.
Qed.
End Root.
