(** Calls give to parameters what is written, in every state of the compile loop. *)
From Coq Require Import String List NArith ZArith Bool Arith Lia Permutation.
From Verif Require Import Model.Base Model.Value Model.Ast Model.Registry Model.AstGraph Model.TyBuild Spec.AstGraphSpec Spec.TyBuildSpec Spec.RegistrySpec Spec.LocalsSpec
  Model.Compile Model.ArgApi.
From Verif Require Model.TyGraph Model.Locals Model.Infer Proofs.CompileTop Proofs.LocalsGraphProofs Proofs.AstFlatProofs Proofs.AstExpandProofs.
From Verif Require Import Spec.CompileSpec Spec.ArgSpec Spec.ParamSpec Proofs.TyBuildBase Proofs.TyBuildNodes Proofs.CompileProofs Proofs.CompileInv Proofs.CompileRuns Proofs.ArgProofs Proofs.CallProofs
  Proofs.ParamLocals Proofs.ParamAsks.
Import ListNotations.
Import Locals.

Section P.
Variables (P : Type) (g : graph) (rep : tkey -> ty) (order : lmap -> lmap) (shuffle : list nat -> list nat) (seeds : list (str * ty)).
Variables (s : defs) (e : expr) (root : tkey) (anon : list tkey) (tg0 : tg_t) (cs0 : list AstGraph.chg).
Notation comp := (comp P ArgApi.binding cparam).
Notation cstep := (cstep P ArgApi.binding).
Implicit Types c : comp.
Variable progs : comp -> nat -> tkey -> prog P.
Hypothesis HS : start s e root anon = Ok (g, tg0).
Hypothesis HI : init s e = Ok (g, cs0).
Hypothesis HL : has_literal_types (df_types s).
Hypothesis HN : forall x t, node g x = Some (NExpr t) -> children g x <> [].
Hypothesis HO : forall m, Permutation (order m) m.
Hypothesis HR : forall t, key_of (rep t) = t.
Hypothesis HD : distinct_params (df_impls s).
Hypothesis HF : forall c cmd t, fair g (progs c cmd t).
Let G : LocalsGraphProofs.good g := LocalsGraphProofs.init_good s e HI.
Let M : made (df_impls s) g := CallProofs.made_g g s e root anon tg0 HS.

Definition intr : comp -> nat -> tkey -> option (reply (tkey * P)) := fun c cmd t => shown (run_intrinsic g c cmd t (progs c cmd t)).
Definition ca : comp -> nat -> tkey -> option ((list ArgApi.binding + cerr) * list ask) := fun c d t => shown (call_args g c d t).
Definition mp : comp -> nat -> option ((injection cparam + cerr) * list ask) := fun c d => shown (map_params g rep c d).
Notation tells := (tells P g rep order seeds).
Notation inv := (inv P ArgApi.binding cparam g tg0 intr ca mp).
Notation calm := (calm P ArgApi.binding cparam g).
Notation moves := (moves P ArgApi.binding cparam g).
Notation stable := (stable P g).
Lemma shown_some : forall X (r : out X) x, shown r = Some x -> r = Good x.
Proof. intros X [x0|er|w|] x H; try discriminate. now injection H as ->. Qed.

(** ** Parameters that are set *)
Inductive fills c (body : nat) : nat -> list aparam -> list nat -> list cparam -> Prop :=
| fills_end : forall i, fills c body i [] [] []
| fills_value : forall i p ps n ns t slot cs, callsite p = true -> declared c body (fst p) (EVar t slot) -> settles c n TyGraph.Out_ (key_of t) ->
    fills c body (S i) ps ns cs -> fills c body i (p :: ps) (n :: ns) (CParam p t slot i :: cs)
| fills_name : forall i p ps n ns cs, callsite p = false -> declared c body (fst p) (EPtr n) ->
    fills c body (S i) ps ns cs -> fills c body i (p :: ps) (n :: ns) cs.
Lemma fills_grows : forall c c' body, bodyb g body = true -> stable c c' -> grows c c' -> forall i ps ns cs, fills c body i ps ns cs -> fills c' body i ps ns cs.
Proof. intros c c' body B S GR i ps ns cs H. induction H; constructor; auto. now apply (proj1 GR). Qed.
Lemma gives_grows : forall c c' body t, bodyb g body = true -> stable c c' -> grows c c' -> forall ps ns bs, gives g c body t ps ns bs -> gives g c' body t ps ns bs.
Proof.
  intros c c' body t B S GR ps ns bs H. induction H as [|p ps n ns u slot a bs C D E (c0 & G0 & A) H IH|p ps n ns bs C D H IH]; [constructor| |constructor; auto].
  eapply gives_value; eauto. exists c0. split; [eapply grows_trans; eauto|auto].
Qed.
Lemma calls_grows : forall c c' d t bs, stable c c' -> grows c c' -> calls g c d t bs -> calls g c' d t bs.
Proof.
  intros c c' d t bs S GR (o & k & e0 & ps & body & K & N & C & H). exists o, k, e0, ps, body. split; [auto|]. split; [auto|]. split; [auto|]. destruct H as [(F & H)|(B & c0 & G0 & H)].
  - left. split; [auto|]. eapply gives_grows; eauto. eapply body_def; eauto.
  - right. split; [auto|]. exists c0. split; [eapply grows_trans; eauto|auto].
Qed.
Lemma nth_inj : forall (ps : list aparam) i j p q, NoDup (map fst ps) -> nth_error ps i = Some p -> nth_error ps j = Some q -> fst p = fst q -> i = j.
Proof.
  intros ps i j p q N I J E. eapply (proj1 (NoDup_nth_error (map fst ps)) N); [rewrite map_length; apply (proj1 (nth_error_Some ps i)); rewrite I; discriminate|].
  now rewrite (map_nth_error fst _ _ I), (map_nth_error fst _ _ J), E.
Qed.
Lemma one_op : forall d e0 ps o k o' k', node g d = Some (NDef e0 ps) -> In (k, d) (keyed g o) -> In (k', d) (keyed g o') -> o' = o.
Proof. intros d e0 ps o k o' k' N K K'. destruct (cmd_parent_ok _ _ M d _ N I) as (o1 & t & k1 & _ & _ & _ & _ & U). destruct (U _ _ K) as (-> & _). destruct (U _ _ K') as (-> & _). auto. Qed.
Lemma serves_own : forall hs c d e0 psf body o k i p n y l, tells hs c -> node g d = Some (NDef e0 psf) -> children g d = [body] -> In (k, d) (keyed g o) ->
  nth_error psf i = Some p -> nth_error (args_below g o) i = Some n -> fst p = y -> declared c body y l -> serves c p n l.
Proof.
  intros hs c d e0 psf body o k i p n y l T N C K Ip In_ E D.
  destruct (in_body P g rep order seeds s e cs0 HI HO hs c body y l T HR (body_def g _ _ _ _ N C) D) as (d' & j & q & m & (o' & k' & e' & ps' & K' & N' & C' & J1 & J2) & F & S).
  assert (d' = d) as -> by (eapply (body_fun g s e cs0 HI); [exact C|rewrite C'; now left]). rewrite N in N'. injection N' as <- <-.
  assert (o' = o) as -> by (eapply one_op; eauto). assert (j = i) as -> by (eapply nth_inj; [eapply params_nodup; eauto|exact J1|exact Ip|congruence]). rewrite Ip in J1. rewrite In_ in J2. congruence.
Qed.
Lemma fills_of : forall hs c d e0 psf body o k, tells hs c -> node g d = Some (NDef e0 psf) -> children g d = [body] -> In (k, d) (keyed g o) ->
  forall i ps ns cs, sets g c body i ps ns cs -> (forall j, nth_error psf (i + j) = nth_error ps j) -> (forall j x, nth_error ns j = Some x -> nth_error (args_below g o) (i + j) = Some x) ->
  fills c body i ps ns cs.
Proof.
  intros hs c d e0 psf body o k T N C K i ps ns cs H. induction H as [i|i p ps n ns t slot cs CS V D H IH|i p ps n ns to cs CS D H IH]; intros HP HA; [constructor| |].
  - pose proof (HP 0) as P0. pose proof (HA 0 n eq_refl) as A0. rewrite Nat.add_0_r in P0, A0.
    pose proof (serves_own _ _ _ _ _ _ _ _ _ _ _ _ _ T N C K P0 A0 eq_refl D) as (_ & SV). constructor; auto. apply IH.
    + intros j. specialize (HP (S j)). rewrite Nat.add_succ_r in HP. exact HP.
    + intros j x J. specialize (HA (S j) x J). rewrite Nat.add_succ_r in HA. exact HA.
  - pose proof (HP 0) as P0. pose proof (HA 0 n eq_refl) as A0. rewrite Nat.add_0_r in P0, A0.
    pose proof (serves_own _ _ _ _ _ _ _ _ _ _ _ _ _ T N C K P0 A0 eq_refl D) as (_ & ->). constructor; auto. apply IH.
    + intros j. specialize (HP (S j)). rewrite Nat.add_succ_r in HP. exact HP.
    + intros j x J. specialize (HA (S j) x J). rewrite Nat.add_succ_r in HA. exact HA.
Qed.
Lemma gives_of : forall c body t args, at_ease c -> forall i ps ns cs, fills c body i ps ns cs -> (forall j, nth_error args (i + j) = nth_error ns j) -> forall bs, Forall2 (passes g c args t) cs bs -> gives g c body t ps ns bs.
Proof.
  intros c body t args AE i ps ns cs H. induction H as [i|i p ps n ns u slot cs CS D SV H IH|i p ps n ns cs CS D H IH]; intros HA bs F.
  - inversion F. constructor.
  - inversion F as [|x b l bs' (n' & a & A1 & -> & A2) F']; subst. cbn in A1, A2. pose proof (HA 0) as A0. rewrite Nat.add_0_r in A0. rewrite A0 in A1. injection A1 as <-.
    cbn [cp_ty cp_slot]. apply gives_value; auto.
    + destruct A2 as (_ & _ & _ & [T|T] & _); [eapply settles_fun; eauto|now apply AE in T].
    + exists c. split; [apply grows_refl|exact A2].
    + apply IH; [|auto]. intros j. specialize (HA (S j)). rewrite Nat.add_succ_r in HA. exact HA.
  - apply gives_name; auto. apply IH; [|auto]. intros j. specialize (HA (S j)). rewrite Nat.add_succ_r in HA. exact HA.
Qed.

(** ** The invariant *)
Definition set_ok c (d : nat) (cs : list cparam) : Prop :=
  exists o k e0 ps body, In (k, d) (keyed g o) /\ node g d = Some (NDef e0 ps) /\ children g d = [body] /\ flags_below g o = [] /\ fills c body 0 ps (firstn 256 (args_below g o)) cs.
Definition h_params c : Prop := forall d cs, alookup Nat.eqb d (c_params c) = Some cs -> set_ok c d cs.
Definition h_calls c : Prop := forall o u bs ss, has_step c o (Call u bs ss) -> exists d t, key_impl g o t = Some d /\ settles c o TyGraph.In_ t /\ calls g c d t bs.
Definition J c : Prop := exists hs, tells hs c /\ h_params c /\ h_calls c.
Lemma set_ok_grows : forall c c' d cs, stable c c' -> grows c c' -> set_ok c d cs -> set_ok c' d cs.
Proof.
  intros c c' d cs S GR (o & k & e0 & ps & body & K & N & C & F & H). exists o, k, e0, ps, body. split; [auto|]. split; [auto|]. split; [auto|]. split; [auto|].
  eapply fills_grows; eauto. eapply body_def; eauto.
Qed.
Lemma params_grows : forall c c', stable c c' -> grows c c' -> c_params c' = c_params c -> h_params c -> h_params c'.
Proof. intros c c' S GR E H d cs L. rewrite E in L. eapply set_ok_grows; eauto. Qed.
Lemma calls_same : forall c c', stable c c' -> grows c c' -> c_ops c' = c_ops c -> h_calls c -> h_calls c'.
Proof.
  intros c c' S GR E H o u bs ss L. unfold has_step in L. rewrite E in L. destruct (H _ _ _ _ L) as (d & t & K & ST & C). exists d, t. split; [auto|]. split; [now apply (proj1 GR)|eapply calls_grows; eauto].
Qed.
Lemma J_same : forall c c', c_lg c' = c_lg c -> c_params c' = c_params c -> c_ops c' = c_ops c -> grows c c' -> J c -> J c'.
Proof.
  intros c c' L R O GR (hs & T & HP & HC). pose proof (stable_lg P g c c' L) as S. exists hs. split; [|split; [eapply params_grows; eauto|eapply calls_same; eauto]].
  eapply (tells_tg P g rep order seeds hs c c'); auto; [apply GR|rewrite R; auto].
Qed.
Lemma J_moves : forall c c', c_lg c' = c_lg c -> moves c c' -> J c -> J c'.
Proof. intros c c' L MV H. pose proof (moves_grows _ _ _ _ _ _ MV) as GR. destruct MV as (MO & MX & MR & _). eapply J_same; eauto. Qed.

Definition is_tg (x : gchg) : Prop := match x with Tg _ => True | Lg _ => False end.
Lemma apply_tg : forall cs c acc c' b, apply_all order c cs acc = Good (c', b) -> Forall is_tg cs -> c_lg c' = c_lg c.
Proof.
  induction cs as [|x cs IH]; intros c acc c' b H F; cbn [apply_all] in H; [now injection H as <- _|]. apply Forall_cons_iff in F. destruct F as (Fx & F). destruct x as [x|x]; [|destruct Fx].
  destruct (TyGraph.apply_chg tkey_eqb (fst (c_tg c)) x) as [tg [b1|e1|]]; try discriminate. apply IH in H; auto.
Qed.
Lemma concat_tg : forall (l : list (list gchg)), (forall x, In x l -> Forall is_tg x) -> Forall is_tg (concat l).
Proof. induction l as [|x l IH]; intros H; cbn; [constructor|]. apply Forall_app. split; [apply H; now left|apply IH; intros y Y; apply H; now right]. Qed.

Lemma resolve_lg : forall c c', resolve c = Good c' -> c_lg c' = c_lg c.
Proof. intros c c' H. unfold resolve in H. destruct (TyGraph.exec_c tkey_eqb (c_tg c) (TyGraph.CResolve tkey)) as [st [u|?|]]; try discriminate. now injection H as <-. Qed.
Lemma populate_lg : forall es c b c' b', populate_loop g c es b = (c', b') -> c_lg c' = c_lg c /\ c_params c' = c_params c /\ c_ops c' = c_ops c.
Proof.
  induction es as [|x es IH]; intros c b c' b' H; cbn [populate_loop] in H; [injection H as <- _; auto|]. destruct (stack_of g c x); apply IH in H; exact H.
Qed.
Lemma assign_lg : forall c c' b, assign_variable_types g order c = Good (c', b) -> c_lg c' = c_lg c.
Proof.
  intros c c' b H. unfold assign_variable_types in H. apply obind_good in H. destruct H as (l & L & H). eapply apply_tg; [exact H|]. apply concat_tg. intros x Jx.
  destruct (omapM_in _ _ _ _ _ L _ Jx) as (n & _ & E). unfold var_chgs in E. destruct (node g n) as [y|]; [|injection E as <-; constructor].
  destruct y; try (injection E as <-; constructor). destruct (multiple_at c n TyGraph.Out_); [|injection E as <-; constructor]. apply obind_good in E. destruct E as (r & _ & E). injection E as <-.
  destruct (snd r) as [[ty0 k|to]|]; repeat constructor.
Qed.
Lemma link_lg : forall ds c b c' b', link_loop g c ds b = Good (c', b') -> c_lg c' = c_lg c.
Proof.
  induction ds as [|d ds IH]; intros c b c' b' H; cbn [link_loop] in H; [now injection H as <- _|]. apply obind_good in H. destruct H as (r & _ & H). now apply IH in H.
Qed.
Lemma inputs_block_lg : forall c c' a, infer_inputs_block g intr ca order c = Good (c', a) -> c_lg c' = c_lg c.
Proof.
  intros c c' a H. unfold infer_inputs_block in H. apply obind_good in H. destruct H as (ns & _ & H). apply obind_good in H. destruct H as (l & L & H).
  unfold yes_no in H. apply obind_good in H. destruct H as ([c1 b] & H & E). injection E as <- _. cbn [fst]. eapply apply_tg; [exact H|]. apply concat_tg. intros x Jx.
  destruct (omapM_in _ _ _ _ _ L _ Jx) as (n & _ & E). unfold failing_types in E. apply obind_good in E. destruct E as (ts & _ & E). apply obind_good in E. destruct E as (rs & _ & E). injection E as <-.
  apply Forall_forall. intros z Z. apply in_map_iff in Z. destruct Z as (y & <- & _). exact I.
Qed.

(** ** Setting parameters *)
Lemma predicted : forall c o d, predict_path g c o = Some d -> exists k t ps, In (k, d) (keyed g o) /\ node g d = Some (NDef t ps).
Proof.
  intros c o d E.
  assert (D : forall d', at_is g TyBuild.is_def d' = true -> exists t ps, node g d' = Some (NDef t ps)).
  { intros d' Z. unfold at_is in Z. destruct (node g d') as [[]|]; try discriminate. eauto. }
  unfold predict_path in E. destruct (ty_at c o TyGraph.In_) as [t|].
  - destruct (key_impl g o t) as [d'|] eqn:K; [|discriminate]. destruct (at_is g TyBuild.is_def d') eqn:Z; [|discriminate]. injection E as ->.
    destruct (D _ Z) as (t1 & ps & N). apply impl_chosen in K. destruct K as [(k & K & _)|(K & _)]; eauto 8.
  - destruct (cmds g o) as [|d' rest] eqn:K; [discriminate|]. destruct (at_is g TyBuild.is_def d') eqn:Z; [|discriminate]. destruct rest; [|discriminate]. injection E as ->.
    destruct (D _ Z) as (t1 & ps & N). assert (Jd : In d (cmds g o)) by (rewrite K; now left). rewrite cmds_eq, <- in_rev in Jd. apply in_map_iff in Jd.
    destruct Jd as ([k d'] & <- & Jd). eauto 8.
Qed.
Lemma predicted_called : forall c o d, at_ease c -> predict_path g c o = Some d -> called P g c d.
Proof.
  intros c o d AE E. pose proof (predicted _ _ _ E) as (k & t0 & ps & K & N). exists o, k. split; [auto|]. unfold predict_path in E. destruct (ty_at c o TyGraph.In_) as [t|] eqn:T.
  - destruct (key_impl g o t) as [d'|] eqn:KI; [|discriminate]. destruct (at_is g TyBuild.is_def d'); [|discriminate]. injection E as ->. left. exists t. split; [|auto].
    apply ty_at_typed in T. destruct T as [T|T]; [exact T|]. destruct (AE _ _ _ T).
  - right. destruct (cmds g o) as [|d' rest] eqn:C; [discriminate|]. destruct (at_is g TyBuild.is_def d'); [|discriminate]. destruct rest; [|discriminate]. injection E as ->.
    intros k' d' K'. assert (J' : In d' (cmds g o)) by (rewrite cmds_eq, <- in_rev; apply in_map_iff; exists (k', d'); auto). rewrite C in J'. destruct J' as [->|[]]. reflexivity.
Qed.
Lemma known_called : forall c d, at_ease c -> In d (known_paths g c) -> called P g c d.
Proof.
  intros c d AE H. unfold known_paths in H. apply in_flat_map in H. destruct H as (o & _ & H). destruct (predict_path g c o) as [d'|] eqn:E; [|destruct H]. destruct H as [->|[]].
  eapply predicted_called; eauto.
Qed.
Lemma known_nodup : forall c, NoDup (known_paths g c).
Proof.
  intros c. unfold known_paths. pose proof (indices_nodup g TyBuild.is_op) as ND. induction (TyBuild.indices g TyBuild.is_op) as [|o os IH]; [constructor|]. apply NoDup_cons_iff in ND. destruct ND as (NI & ND).
  cbn [flat_map]. destruct (predict_path g c o) as [d|] eqn:E; [|now apply IH]. cbn [app]. constructor; [|now apply IH]. intros Z. apply in_flat_map in Z. destruct Z as (o' & Jo & Z).
  destruct (predict_path g c o') as [d'|] eqn:E'; [|destruct Z]. destruct Z as [->|[]]. apply predicted in E. destruct E as (k & t & ps & K & N). apply predicted in E'. destruct E' as (k' & t' & ps' & K' & _).
  assert (o' = o) as -> by (eapply one_op; eauto). contradiction.
Qed.

Lemma okc_grows : forall c c', grows c c' -> (forall d, has d (c_params c) = true -> has d (c_params c') = true) -> forall x, okc P g rep c x -> okc P g rep c' x.
Proof. intros c c' GR S [x|x] H; [exact I|]. cbn in *. eapply sound_grows; [apply GR|exact S|exact H]. Qed.
Lemma asks_ok : forall c d e0 ps o k body r asks, at_ease c -> node g d = Some (NDef e0 ps) -> In (k, d) (keyed g o) -> children g d = [body] -> called P g c d -> map_params g rep c d = Good (r, asks) ->
  Forall (okc P g rep c) (map asked asks).
Proof.
  intros c d e0 ps o k body r asks AE N K C CD H. apply Forall_forall. intros x Jx. apply in_map_iff in Jx. destruct Jx as (a & <- & Ja).
  pose proof (params_asks P g rep s e root anon tg0 HS _ _ _ _ _ _ _ _ _ N K C H a Ja) as (i & p & n & I1 & I2 & I3).
  assert (PR : parameter g d body i p n) by (exists o, k, e0, ps; auto 6).
  destruct a as [| |m u| | |y t b|y to b| | ]; cbn in I3; try contradiction; cbn; auto.
  - destruct I3 as (-> & -> & CS & _ & u & -> & TY). intros _. exists d, i, p, n, u. split; [auto|]. split; [auto|]. split; [auto|]. split; [auto|]. destruct TY as [TY|TY]; [auto|now apply AE in TY].
  - destruct I3 as (-> & -> & -> & CS). exists d, i, p. auto 6.
Qed.
Lemma params_new : forall c d e0 ps o k body r asks, node g d = Some (NDef e0 ps) -> In (k, d) (keyed g o) -> children g d = [body] -> map_params g rep c d = Good (r, asks) ->
  new_in P g c body ps asks.
Proof.
  intros c d e0 ps o k body r asks N K C H. destruct (def_facts g s e root anon tg0 HS d e0 ps o k N K) as (x & C' & E & DP & A & F). assert (x = body) as -> by congruence.
  unfold map_params in H. destruct F as [(F & FG)|(F & f & fs & FG)]; rewrite FG in H; cbn [sure obind] in H; [|injection H as <- <-; now apply new_none].
  rewrite A, DP, E in H. cbn [sure obind] in H. eapply loop_new; [eapply body_def; eauto| |exact H]. eapply params_nodup; eauto.
Qed.
Lemma nodup_app : forall X (a b : list X), NoDup a -> NoDup b -> (forall x, In x a -> ~ In x b) -> NoDup (a ++ b).
Proof.
  induction a as [|x a IH]; intros b A B D; [exact B|]. apply NoDup_cons_iff in A. destruct A as (NI & A). cbn. constructor; [|apply IH; auto; intros y Y; apply D; now right].
  intros Z. apply in_app_iff in Z. destruct Z as [Z|Z]; [contradiction|]. apply (D x); [now left|auto].
Qed.
Lemma locals_J : forall ds c cs b c' cs' b' hs, locals_loop g mp order c ds cs b = Good (c', cs', b') -> NoDup ds ->
  (forall d, In d ds -> called P g c d /\ exists o k t ps, In (k, d) (keyed g o) /\ node g d = Some (NDef t ps)) -> at_ease c -> tells hs c -> h_params c -> h_calls c ->
  Forall (okc P g rep c) cs -> NoDup (names g hs ++ gnames g cs) -> (forall x y, In (x, y) (gnames g cs) -> exists d, ~ In d ds /\ In x (children g d)) ->
  exists hs', tells hs' c' /\ h_params c' /\ h_calls c' /\ Forall (okc P g rep c') cs' /\ NoDup (names g hs' ++ gnames g cs').
Proof.
  induction ds as [|d ds IH]; intros c cs b c' cs' b' hs H ND HK AE T HP HC F N NM; cbn [locals_loop] in H; [injection H as <- <- <-; eauto 8|].
  apply NoDup_cons_iff in ND. destruct ND as (NI & ND). destruct (HK d (or_introl eq_refl)) as (CD & o & k & e0 & ps & K & Nd).
  destruct (def_facts g s e root anon tg0 HS d e0 ps o k Nd K) as (body & C & DE & _). pose proof (body_def g _ _ _ _ Nd C) as B. pose proof (body_lt g s e cs0 HI body B) as LT.
  apply obind_good in H. destruct H as ([r asks] & MP & H). apply expect_good in MP. apply shown_some in MP.
  pose proof (asks_ok _ _ _ _ _ _ _ _ _ AE Nd K C CD MP) as FA. pose proof (params_new _ _ _ _ _ _ _ _ _ Nd K C MP) as (NA & NW).
  assert (F' : Forall (okc P g rep c) (cs ++ map asked asks)) by (apply Forall_app; auto).
  assert (N' : NoDup (names g hs ++ gnames g (cs ++ map asked asks))).
  { rewrite gnames_app, app_assoc. apply nodup_app; auto. intros [x y] Z W. destruct (NW _ _ W) as (-> & _ & DN). apply in_app_iff in Z. destruct Z as [Z|Z].
    - apply (named_bound g seeds) in Z. destruct (bound_at (history seeds hs) body y) as [l|] eqn:BA; [|congruence]. apply (DN l).
      apply (declared_iff P g rep order seeds s e cs0 HI HO hs c body y l T); [lia|auto].
    - destruct (NM _ _ Z) as (d' & ND' & Jd). apply ND'. left. symmetry. eapply (body_fun g s e cs0 HI); eauto. }
  assert (NM' : forall x y, In (x, y) (gnames g (cs ++ map asked asks)) -> exists d0, ~ In d0 ds /\ In x (children g d0)).
  { intros x y Z. rewrite gnames_app in Z. apply in_app_iff in Z. destruct Z as [Z|Z]; [destruct (NM _ _ Z) as (d' & ND' & Jd); exists d'; split; [intros W; apply ND'; now right|auto]|].
    destruct (NW _ _ Z) as (-> & _). exists d. split; [auto|]. rewrite C. now left. }
  assert (HK' : forall d0, In d0 ds -> called P g c d0 /\ exists o k t ps, In (k, d0) (keyed g o) /\ node g d0 = Some (NDef t ps)) by (intros d0 Z; apply HK; now right).
  destruct r as [[cps| |]|er]; try discriminate; try (eapply IH in H; eauto; fail).
  destruct (params_ok P g rep s e root anon tg0 HS _ _ _ _ _ _ _ _ _ Nd K C MP) as (-> & FL & ST).
  apply obind_good in H. destruct H as (x & DX & H). apply sure_good in DX. assert (x = body) as -> by congruence. apply obind_good in H. destruct H as ([b1 lg] & AP & H). apply sure_good in AP. cbn [snd] in H.
  set (c1 := set_params c (ainsert Nat.eqb d cps (c_params c))) in *.
  assert (HM : forall d0, has d0 (c_params c) = true -> has d0 (c_params c1) = true).
  { intros d0 Z. unfold has, c1 in *. cbn. rewrite nins. destruct (Nat.eqb d d0); auto. }
  assert (G1 : grows c c1) by (split; [auto|split; auto]).
  assert (T1 : tells hs c1) by (eapply (tells_tg P g rep order seeds hs c c1); auto).
  assert (SD : sound P g rep c1 (SealExpr body)).
  { exists d, e0, ps. split; [auto|]. split; [auto|]. unfold has, c1. cbn. rewrite nins, Nat.eqb_refl. reflexivity. }
  assert (N1 : NoDup (names g hs ++ names g [SealExpr body])).
  { cbn. rewrite app_nil_r. destruct T as (_ & _ & _ & T). exact T. }
  destruct (step_tells P g rep order seeds s e cs0 HI HO hs c1 (SealExpr body) b1 lg T1 SD N1 AP) as (T2 & S2).
  set (c2 := set_lg c1 lg) in *. assert (G2 : grows c c2) by (split; [auto|split; auto]).
  assert (FO : fills c body 0 ps (firstn 256 (args_below g o)) cps).
  { eapply fills_of; eauto. intros j x J0. rewrite Nat.add_0_l. rewrite <- (firstn_skipn 256 (args_below g o)). rewrite nth_error_app1; [exact J0|]. apply nth_error_Some. rewrite J0. discriminate. }
  assert (S0 : stable c c2) by exact S2.
  eapply IH in H; [exact H|exact ND|exact HK'|exact AE|exact T2| | | | |exact NM'].
  - intros d0 cs1 L. unfold c2, c1 in L. cbn in L. rewrite nins in L. destruct (Nat.eqb_spec d d0) as [<-|].
    + injection L as <-. eapply set_ok_grows; [exact S0|exact G2|]. exists o, k, e0, ps, body. auto 8.
    + eapply set_ok_grows; [exact S0|exact G2|]. apply HP. exact L.
  - eapply calls_same; [exact S0|exact G2|reflexivity|exact HC].
  - eapply Forall_impl; [|exact F']. apply (okc_grows c c2); [exact G2|exact HM].
  - rewrite names_app. cbn [names flat_map]. rewrite app_nil_r. exact N'.
Qed.
Lemma available_J : forall c c' b, at_ease c -> J c -> insert_available_def_locals g mp order c = Good (c', b) -> J c'.
Proof.
  intros c c' b AE (hs & T & HP & HC) H. unfold insert_available_def_locals in H. apply obind_good in H. destruct H as ([[c1 cs] b1] & L & H). apply obind_good in H.
  destruct H as ([c2 b2] & H & E). cbn [fst snd] in *. injection E as <- <-. pose proof (locals_loop_ok _ _ _ g mp order _ _ _ _ _ _ _ L (Forall_nil _)) as (_ & _ & _ & _ & FC & _).
  eapply locals_J in L; [|apply NoDup_filter, known_nodup| |exact AE|exact T|exact HP|exact HC|constructor| |].
  - destruct L as (hs1 & T1 & HP1 & HC1 & F1 & N1). destruct (apply_all_tells P g rep order seeds s e cs0 HI HO _ _ _ _ _ _ H T1 F1 N1) as (hs2 & T2 & S2).
    apply apply_all_moves with (g := g) in H; [|exact FC]. destruct H as (MV & _). pose proof (moves_grows _ _ _ _ _ _ MV) as GR. destruct MV as (MO & MX & MR & _). exists hs2.
    split; [auto|]. split; [eapply params_grows; eauto|eapply calls_same; eauto].
  - intros d Z. apply filter_In in Z. destruct Z as (Z & _). split; [now apply known_called|eapply known_path_def; eauto].
  - cbn. rewrite app_nil_r. destruct T as (_ & _ & _ & T). exact T.
  - intros x y [].
Qed.

(** ** Blocks *)
Lemma J_pointed : forall hs c, tells hs c -> pointed P g c.
Proof. intros hs c T n x b to H. eapply (points P g rep order seeds s e cs0 HI HO); eauto. Qed.
Lemma intr_tame : forall hs c cmd t r op f, tells hs c -> node g cmd = Some (NIntrinsic op f) -> intr c cmd t = Some r -> Forall (tame g) (r_asks r).
Proof.
  intros hs c cmd t r op f T N H. apply shown_some in H. unfold run_intrinsic in H. destruct (cmd_parent_ok _ _ M cmd _ N I) as (o & to & k & No & CP & K & _). rewrite CP in H. cbn [sure obind] in H.
  apply obind_good in H. destruct H as (flags & _ & H). rewrite (get_args_all _ _ M _ _ _ K) in H. cbn [sure obind] in H.
  eapply (exec_tame P g s e cs0 HI c (J_pointed _ _ T)); [apply HF| |exact H]. split; [exists to; exact No|]. split; [|constructor]. cbn [k_args k_op]. apply Forall_forall. intros n Z.
  rewrite <- (firstn_skipn 256 (args_below g o)). apply in_or_app. now left.
Qed.
Lemma block_tame : forall hs c o t r, tells hs c -> compile_block g intr ca c o t = Good r -> Forall (tame g) (r_asks r).
Proof.
  intros hs c o t r T B. unfold compile_block in B. destruct (key_impl g o t) as [cmd|]; [|injection B as <-; constructor].
  destruct (node g cmd) as [[| op f|y ps| | | | | | ]|] eqn:N; try discriminate.
  - apply obind_good in B. destruct B as (r0 & E0 & B). apply expect_good in E0. injection B as <-. cbn. eapply intr_tame; eauto.
  - apply obind_good in B. destruct B as (body & D & B). destruct (alookup Nat.eqb body (c_exprs c)) as [stack|]; [|injection B as <-; repeat constructor].
    apply obind_good in B. destruct B as ([r0 asks] & CA & B). apply expect_good in CA. apply shown_some in CA. apply call_args_tame in CA.
    destruct r0 as [args|er]; [|injection B as <-; exact CA]. apply obind_good in B. destruct B as (u & U & B). injection B as <-. exact CA.
Qed.
Lemma block_calls : forall hs c o t r u bs ss, tells hs c -> h_params c -> at_ease c -> compile_block g intr ca c o t = Good r -> r_res r = inl (Call u bs ss) ->
  exists d, key_impl g o t = Some d /\ calls g c d t bs.
Proof.
  intros hs c o t r u bs ss T HP AE B X. unfold compile_block in B. destruct (key_impl g o t) as [cmd|] eqn:KI; [|injection B as <-; discriminate].
  destruct (node g cmd) as [[| op f|y ps| | | | | | ]|] eqn:N; try discriminate.
  - apply obind_good in B. destruct B as (r0 & E0 & B). injection B as <-. cbn in X. destruct (r_res r0) as [[? ?]|]; discriminate.
  - apply obind_good in B. destruct B as (body & D & B). apply sure_good in D. destruct (def_expr_ok _ _ M _ _ _ N) as (b' & t' & D' & CH & NB). rewrite D in D'. injection D' as <-.
    destruct (alookup Nat.eqb body (c_exprs c)) as [stack|] eqn:L; [|injection B as <-; discriminate].
    apply obind_good in B. destruct B as ([[args|er] asks] & CA & B); [|injection B as <-; discriminate]. apply expect_good in CA. apply shown_some in CA. apply obind_good in B. destruct B as (u' & U & B). injection B as <-.
    cbn in X. injection X as <- <- <-. exists cmd. split; [auto|]. destruct (cmd_parent_ok _ _ M cmd _ N I) as (o' & to & k & No & _ & K & _).
    pose proof (call_args_ok P g c cmd t args asks _ (get_args_all _ _ M _ _ _ K) CA) as (_ & F2). exists o', k, y, ps, body. split; [auto|]. split; [auto|]. split; [auto|].
    destruct (alookup Nat.eqb cmd (c_params c)) as [cs|] eqn:LP.
    + left. destruct (HP _ _ LP) as (o1 & k1 & e1 & ps1 & body1 & K1 & N1 & C1 & FL & FI). rewrite N in N1. injection N1 as <- <-. assert (o1 = o') as -> by (eapply one_op; eauto). assert (body1 = body) as -> by congruence.
      split; [auto|]. eapply gives_of; [exact AE|exact FI| |exact F2]. intros j. now rewrite Nat.add_0_l.
    + right. inversion F2; subst. split; [auto|]. exists c. split; [apply grows_refl|]. split; [exists stack; exact L|]. intros n x l A Fn.
      pose proof (found_set P g rep order seeds s e cs0 HI HO hs c cmd y ps body n x l T N CH A Fn) as Z. unfold has in Z. rewrite LP in Z. discriminate.
Qed.
Lemma blocks_J : forall ns c cs dn er c' cs' dn' er' hs, tells hs c -> h_params c -> h_calls c -> calm c ->
  (forall n, In n ns -> (exists t, node g n = Some (NOp t)) /\ has n (c_ops c) = false) -> NoDup ns -> Forall (okc P g rep c) cs -> gnames g cs = [] ->
  blocks_loop g intr ca c ns cs dn er = Good (c', cs', dn', er') ->
  tells hs c' /\ h_params c' /\ h_calls c' /\ Forall (okc P g rep c') cs' /\ gnames g cs' = [].
Proof.
  induction ns as [|n ns IH]; intros c cs dn er c' cs' dn' er' hs T HP HC CM U ND F N B; cbn [blocks_loop] in B; [injection B as <- <- <- <-; auto|].
  apply obind_good in B. destruct B as (t & TY & B). apply expect_good in TY. apply obind_good in B. destruct B as (r & R & B).
  assert (ST : settles c n TyGraph.In_ t) by now apply (proj2 CM). apply NoDup_cons_iff in ND. destruct ND as (NI & ND). destruct (U n (or_introl eq_refl)) as ((tn & Nn) & Un).
  pose proof (block_tame _ _ _ _ _ T R) as TM. pose proof (calm_ease _ _ _ _ _ CM) as AE.
  assert (FA : Forall (okc P g rep c) (cs ++ map asked (r_asks r))).
  { apply Forall_app. split; [auto|]. apply Forall_forall. intros x Z. apply in_map_iff in Z. destruct Z as (a & <- & Z). apply tame_ok. rewrite Forall_forall in TM. auto. }
  assert (NA : gnames g (cs ++ map asked (r_asks r)) = []) by (rewrite gnames_app, N; exact (tame_names g _ TM)).
  assert (SL : forall c0, Forall (okc P g rep c0) (if r_adds r then [] else [Lg (Seal n)])) by (intros c0; destruct (r_adds r); repeat constructor; exists tn; exact Nn).
  assert (SN : gnames g (if r_adds r then [] else [Lg (Seal n)]) = []) by (destruct (r_adds r); reflexivity).
  destruct (r_res r) as [x|e1] eqn:X.
  - set (c1 := set_ops c (ainsert Nat.eqb n x (c_ops c))) in *.
    assert (G1 : grows c c1).
    { split; [auto|]. split; [|auto]. intros o y Y. unfold has_step, c1. cbn. rewrite nins. destruct (Nat.eqb_spec n o) as [->|]; [|exact Y]. unfold has in Un. unfold has_step in Y. rewrite Y in Un. discriminate. }
    assert (S1 : stable c c1) by (apply stable_lg; reflexivity).
    assert (FA' : Forall (okc P g rep c1) (cs ++ map asked (r_asks r))) by (eapply Forall_impl; [|exact FA]; apply (okc_grows c c1); auto).
    eapply IH in B; [exact B| | | |exact CM| |exact ND| |].
    + eapply (tells_tg P g rep order seeds hs c c1); auto.
    + eapply params_grows; eauto.
    + intros o u bs ss Z. unfold has_step, c1 in Z. cbn in Z. rewrite nins in Z. destruct (Nat.eqb_spec n o) as [<-|].
      * injection Z as ->. destruct (block_calls _ _ _ _ _ _ _ _ T HP AE R X) as (d & K & CL). exists d, t. split; [auto|]. split; [exact ST|eapply calls_grows; eauto].
      * destruct (HC _ _ _ _ Z) as (d & t' & K & S' & CL). exists d, t'. split; [auto|]. split; [exact S'|eapply calls_grows; eauto].
    + intros m Z. destruct (U m (or_intror Z)) as (Nm & Um). split; [auto|]. unfold has, c1. cbn. rewrite nins. destruct (Nat.eqb_spec n m) as [->|]; [contradiction|exact Um].
    + apply Forall_app. split; [exact FA'|]. apply Forall_app. split; [repeat constructor|apply SL].
    + rewrite gnames_app, NA, gnames_app, SN. reflexivity.
  - set (c1 := if r_infer r then set_infer c (c_infer c ++ [n]) else c) in *.
    assert (E1 : c_tg c1 = c_tg c /\ c_exprs c1 = c_exprs c /\ c_ops c1 = c_ops c /\ c_lg c1 = c_lg c /\ c_params c1 = c_params c) by (unfold c1; destruct (r_infer r); auto 6).
    destruct E1 as (E1 & E2 & E3 & E4 & E5). assert (G1 : grows c c1) by (unfold grows, settles, has_step, has_stack; rewrite E1, E2, E3; auto).
    assert (S1 : stable c c1) by (apply stable_lg; auto).
    assert (FA' : Forall (okc P g rep c1) (cs ++ map asked (r_asks r))) by (eapply Forall_impl; [|exact FA]; apply (okc_grows c c1); [auto|rewrite E5; auto]).
    eapply IH in B; [exact B| | | | | |exact ND| |].
    + eapply (tells_tg P g rep order seeds hs c c1); auto; [apply G1|rewrite E5; auto].
    + eapply params_grows; eauto.
    + eapply calls_same; eauto.
    + eapply calm_same; [|exact CM]. intros m sd. unfold kn. now rewrite E1.
    + intros m Z. rewrite E3. apply U. now right.
    + apply Forall_app. split; [exact FA'|apply SL].
    + rewrite gnames_app, NA, SN. reflexivity.
Qed.
Lemma compile_blocks_J : forall c c' r, inv c -> calm c -> J c -> compile_blocks g intr ca order c = Good (c', r) -> J c'.
Proof.
  intros c c' r (H & OK & XK & MPD) CM (hs & T & HP & HC) B. unfold compile_blocks in B. apply obind_good in B. destruct B as ([[[c1 cs] dn] er] & B & Z).
  apply obind_good in Z. destruct Z as ([c2 b] & AP & Z). cbn [fst snd] in Z.
  assert (c' = c2) as -> by (destruct (dn || b); [now injection Z as <-|]; destruct er; [now injection Z as <-|discriminate]). clear Z. pose proof B as B0.
  assert (U0 : forall n, In n (ready g c) -> has n (c_ops c) = false) by (intros n Jn; now apply ready_in in Jn).
  apply (blocks_loop_ok _ _ _ s e root anon g tg0 HS HL intr ca mp HN _ _ _ _ _ _ _ _ _ H CM MPD U0 (NoDup_filter _ (indices_nodup g _)) (Forall_nil _)) in B0. destruct B0 as (_ & _ & _ & _ & _ & _ & B5 & _).
  eapply blocks_J in B; [|exact T|exact HP|exact HC|exact CM| | |constructor|reflexivity].
  - destruct B as (T1 & HP1 & HC1 & F1 & N1). pose proof AP as AP0. assert (N2 : NoDup (names g hs ++ gnames g cs)) by (rewrite N1, app_nil_r; destruct T as (_ & _ & _ & T); exact T).
    destruct (apply_all_tells P g rep order seeds s e cs0 HI HO _ _ _ _ _ _ AP T1 F1 N2) as (hs2 & T2 & S2).
    apply apply_all_moves with (g := g) in AP; [|exact B5]. destruct AP as (MV & _). pose proof (moves_grows _ _ _ _ _ _ MV) as GR. destruct MV as (MO & MX & MR & _). exists hs2.
    split; [auto|]. split; [eapply params_grows; eauto|eapply calls_same; eauto].
  - intros n Jn. apply ready_in in Jn. tauto.
  - apply NoDup_filter, indices_nodup.
Qed.

(** ** Guesses *)
Definition good_rec (rec : comp -> nat -> out comp) : Prop := forall c b c', inv c -> J c -> rec c b = Good c' -> inv c' /\ J c'.
Lemma guess_J : forall rec c sd brk ns c' a, good_rec rec -> inv c -> J c -> guess order rec c sd brk ns = Good (c', a) -> inv c' /\ J c'.
Proof.
  intros rec c sd brk ns c' a R I0 J0 H. unfold guess in H. destruct (Infer.round_loop _ ns None []) as [c1|rm|n v|n|] eqn:E.
  - injection H as <- _. apply loop_from in E. destruct E as (n & _ & E). unfold Infer.test_compile_types in E. apply trials_from in E.
    destruct E as [E|(t & _ & E)]; [discriminate|]. unfold trial in E. destruct (sure (brk n)) as [b|e1|w|]; try discriminate.
    destruct (apply_all order _ _ false) as [[c2 b2]|e1|w|] eqn:AP; try discriminate. cbn [fst outcome_of] in E. destruct (rec c2 b) as [c3|e1|w|] eqn:RC; try discriminate.
    2: destruct (er_deep e1); discriminate. injection E as ->.
    pose proof (apply_tg _ _ _ _ _ AP ltac:(repeat constructor)) as LG. cbn in LG. apply apply_all_moves with (g := g) in AP; [|repeat constructor; destruct sd; exact Logic.I]. destruct AP as (MV & _).
    assert (M0 : moves c c2) by (eapply moves_trans; [apply moves_same|exact MV]; auto).
    apply R in RC; [auto|eapply inv_moves; eauto|eapply J_moves; eauto].
  - unfold yes_no in H. apply obind_good in H. destruct H as ([c1 b] & H & E1). injection E1 as <- _. cbn [fst].
    assert (LG : c_lg c1 = c_lg c) by (eapply apply_tg; [exact H|]; apply Forall_forall; intros x Z; apply in_map_iff in Z; destruct Z as (y & <- & _); exact Logic.I).
    apply apply_all_moves with (g := g) in H.
    + destruct H as (MV & _). split; [eapply inv_moves; eauto|eapply J_moves; eauto].
    + apply Forall_forall. intros x Z. apply in_map_iff in Z. destruct Z as (y & <- & _). destruct sd; exact Logic.I.
  - injection H as <- _. auto.
  - destruct (find _ _) as [[|[?|?|?|]]|]; try discriminate. injection H as <- _. auto.
  - injection H as <- _. auto.
Qed.
Lemma outputs_J : forall rec c c' a, good_rec rec -> inv c -> J c -> infer_outputs g order rec c = Good (c', a) -> inv c' /\ J c'.
Proof.
  intros rec c c' a R I0 J0 H. unfold infer_outputs in H. destruct (c_depth c <? 5); [|injection H as <- _; auto].
  apply guess_J in H; [exact H|auto|now apply inv_infer|]. eapply J_moves; [| |exact J0]; [reflexivity|now apply moves_same].
Qed.
Lemma inputs_J : forall rec c c' a, good_rec rec -> inv c -> J c -> infer_inputs_expr g order shuffle rec c = Good (c', a) -> inv c' /\ J c'.
Proof.
  intros rec c c' a R I0 J0 H. unfold infer_inputs_expr in H. destruct (c_depth c <? 5); [|injection H as <- _; auto].
  apply obind_good in H. destruct H as (ns & _ & H). apply guess_J in H; auto.
Qed.
Lemma guesses_J : forall rec c er c', good_rec rec -> inv c -> J c -> guesses g intr ca order shuffle rec c er = Good c' -> inv c' /\ J c'.
Proof.
  intros rec c er c' R I0 J0 H. unfold guesses in H. apply obind_good in H. destruct H as ([c1 a1] & H1 & H). pose proof (inputs_block_lg _ _ _ H1) as LG. apply inputs_block_moves in H1. destruct H1 as (M1 & _).
  assert (I1 : inv c1) by (eapply inv_moves; eauto). assert (J1 : J c1) by (eapply J_moves; eauto).
  assert (K : forall er1, (let! r := infer_outputs g order rec c1 in
      match r with
      | (c, Yes) => Good c
      | (c, a) => let err := match a with Oops e => e | _ => er1 end in
        if match a with Oops e => er_hard e | _ => false end then Bad err else
        let! r := infer_inputs_expr g order shuffle rec c in
        match r with (c, Yes) => Good c | (c, Oops e) => Bad e | (c, No) => Bad err end
      end) = Good c' -> inv c' /\ J c').
  { intros er1 Z. apply obind_good in Z. destruct Z as ([c2 a2] & H2 & Z). apply outputs_J in H2; auto. destruct H2 as (I2 & J2).
    assert (K2 : forall er2, (let! r := infer_inputs_expr g order shuffle rec c2 in
        match r with (c, Yes) => Good c | (c, Oops e) => Bad e | (c, No) => Bad er2 end) = Good c' -> inv c' /\ J c').
    { intros er2 W. apply obind_good in W. destruct W as ([c3 a3] & H3 & W). apply inputs_J in H3; auto. destruct a3; try discriminate. now injection W as <-. }
    destruct a2 as [| |e2]; [injection Z as <-; auto|exact (K2 _ Z)|]. cbv zeta in Z. destruct (er_hard e2); [discriminate|]. exact (K2 _ Z). }
  destruct a1 as [| |e1]; [injection H as <-; auto|exact (K _ H)|exact (K _ H)].
Qed.
Lemma round_J : forall rec c c', good_rec rec -> inv c -> J c -> round g intr ca mp order shuffle rec c = Good c' -> inv c' /\ J c'.
Proof.
  intros rec c c' R I0 J0 H. unfold round in H. apply obind_good in H. destruct H as (c1 & H1 & H).
  assert (C1 : calm c1) by (eapply (resolve_calm _ _ _ s e root anon g tg0 HS HL); [exact (proj1 I0)|exact H1]). pose proof (resolve_lg _ _ H1) as L1. apply (resolve_moves P _ _ g) in H1. destruct H1 as (M1 & _).
  assert (I1 : inv c1) by (eapply inv_moves; eauto). assert (J1 : J c1) by (eapply J_moves; eauto).
  destruct (populate g c1) as [c2 b2] eqn:H2. pose proof (populate_lg _ _ _ _ _ H2) as (P1 & P2 & P3). eapply (populate_ok _ _ _ s e root anon g tg0 HS) in H2; eauto. destruct H2 as (I2 & G2 & C2 & Z2).
  assert (J2 : J c2) by (eapply J_same; eauto). destruct b2; [injection H as <-; auto|]. specialize (Z2 eq_refl). subst c2.
  apply obind_good in H. destruct H as ([c3 b3] & H3 & H). pose proof (assign_lg _ _ _ H3) as L3. apply assign_moves in H3. destruct H3 as (M3 & S3). cbn [fst snd] in H.
  assert (I3 : inv c3) by (eapply inv_moves; eauto). assert (J3 : J c3) by (eapply J_moves; eauto).
  destruct b3; [injection H as <-; auto|]. assert (C3 : calm c3) by (eapply calm_same; eauto).
  apply obind_good in H. destruct H as ([c4 b4] & H4 & H). pose proof (locals_moves _ _ _ _ _ _ _ _ _ H4) as S4. cbn [fst snd] in H.
  assert (J4 : J c4) by (eapply available_J; [|exact J3|exact H4]; eapply calm_ease; exact C3).
  apply (locals_inv _ _ _ _ tg0 intr ca) in H4; [|auto|eapply calm_ease; exact C3]. destruct H4 as (I4 & _).
  destruct b4; [injection H as <-; auto|]. destruct (S4 eq_refl) as (_ & SK4). assert (C4 : calm c4) by (eapply calm_same; eauto).
  apply obind_good in H. destruct H as ([c5 b5] & H5 & H). assert (L5 : c_lg c5 = c_lg c4) by (pose proof H5 as H5'; unfold link_known_def_path_args in H5'; apply obind_good in H5'; destruct H5' as (ds & _ & H5'); now apply link_lg in H5').
  apply (link_moves _ _ _ s e root anon g tg0 HS HN) in H5. destruct H5 as (M5 & S5). cbn [fst snd] in H.
  assert (I5 : inv c5) by (eapply inv_moves; eauto). assert (J5 : J c5) by (eapply J_moves; eauto).
  destruct b5; [injection H as <-; auto|]. assert (C5 : calm c5) by (eapply calm_same; eauto).
  apply obind_good in H. destruct H as ([c6 r6] & H6 & H). assert (J6 : J c6) by (eapply compile_blocks_J; eauto).
  apply (compile_blocks_ok _ _ _ s e root anon g tg0 HS HL intr ca mp order HN) in H6; auto. destruct H6 as (I6 & _). cbn [fst snd] in H.
  destruct r6 as [e6|]; [|injection H as <-; auto]. destruct (er_hard e6); [discriminate|]. exact (guesses_J _ _ _ _ R I6 J6 H).
Qed.
Lemma compile_J : forall fuel c b c', inv c -> J c -> compile g intr ca mp order shuffle fuel c b = Good c' -> inv c' /\ J c'.
Proof.
  induction fuel as [|fuel IH]; intros c b c' I0 J0 H; cbn [compile] in H; [discriminate|].
  destruct (_ || _); [injection H as <-; auto|]. apply obind_good in H. destruct H as (c1 & H1 & H).
  apply round_J in H1; [|exact IH|exact I0|exact J0]. destruct H1 as (I1 & J1). eapply IH; eauto.
Qed.
Lemma fresh_J : forall c, fresh P _ _ g order tg0 seeds = Good c -> J c.
Proof.
  intros c H. unfold fresh in H. apply obind_good in H. destruct H as (lg & B & H). apply sure_good in B. apply obind_good in H. destruct H as (lg2 & S & H). apply sure_good in S. injection H as <-.
  exists []. split; [|split; [intros d cs Z; discriminate|intros o u bs ss Z; discriminate]]. split; [constructor|]. split; [|split; [constructor|constructor]].
  unfold locals_of. rewrite B. cbn [rbind]. rewrite S. reflexivity.
Qed.

(** ** Running *)
Notation runs c := (runs g (answered intr c) (calls g c)).
Notation step_of c := (step_of g (answered intr c) (calls g c)).
Lemma chain_runs : forall c k, inv c -> (forall o t x, size P ArgApi.binding x < k -> has_step c o x -> settles c o TyGraph.In_ t -> step_of c o t (s_out x) x) ->
  forall os ss t v, Forall2 (has_step c) os ss -> (forall x, In x ss -> size P ArgApi.binding x < k) -> chain P ArgApi.binding cparam c t os v -> runs c os t v ss.
Proof.
  intros c k I0 IH. induction os as [|o os IHo]; intros ss t v F S C; inversion F; subst.
  - cbn in C. subst v. constructor.
  - cbn in C. destruct C as (SI & u & SO & C). assert (u = s_out y) as ->.
    { destruct (proj1 (proj2 I0) o y H1) as (_ & t' & _ & SO' & _). eapply settles_fun; eauto. }
    apply runs_block with (u := s_out y); [apply IH; auto; apply S; now left|]. apply IHo; auto. intros x Z. apply S. now right.
Qed.
Lemma steps_run : forall c, inv c -> J c -> forall k o t x, size P ArgApi.binding x < k -> has_step c o x -> settles c o TyGraph.In_ t -> step_of c o t (s_out x) x.
Proof.
  intros c I0 J0. induction k as [|k IH]; intros o t x S H ST; [lia|].
  destruct (proj1 (proj2 I0) o x H) as (_ & t' & SI & SO & cmd & K & W). assert (t' = t) as -> by (eapply settles_fun; eauto). pose proof K as KI.
  apply impl_chosen in K. destruct x as [u p|u args stack]; cbn [s_out].
  - destruct W as ((op & f & N) & AN). eapply step_intrinsic; eauto.
  - destruct W as (y & ps & body & N & CH & SU & ST2 & BI & BO). destruct (proj1 (proj2 (proj2 I0)) body stack ST2) as (_ & t2 & v2 & S1 & S2 & C & F).
    assert (t2 = t) as -> by (eapply settles_fun; eauto). assert (v2 = u) as -> by (eapply settles_fun; eauto).
    destruct J0 as (hs & _ & _ & HC). destruct (HC _ _ _ _ H) as (d & t3 & K3 & S3 & CL). assert (t3 = t) as -> by (eapply settles_fun; eauto). assert (d = cmd) as -> by congruence.
    eapply step_call; eauto. eapply chain_runs with (k := k); eauto. intros x Z. apply size_in in Z. cbn [size] in S. lia.
Qed.
Lemma exprs_run : forall c, inv c -> J c -> forall x stack, has_stack c x stack -> exists t v, settles c x TyGraph.In_ t /\ settles c x TyGraph.Out_ v /\ runs c (children g x) t v stack.
Proof.
  intros c I0 J0 x stack H. destruct (proj1 (proj2 (proj2 I0)) x stack H) as (_ & t & v & S1 & S2 & C & F). exists t, v. split; [auto|]. split; [auto|].
  eapply chain_runs with (k := S (list_sum (map (size P ArgApi.binding) stack))); eauto.
  - intros o t' y S. eapply steps_run; eauto.
  - intros y Z. apply size_in in Z. lia.
Qed.
End P.

(** ** Altogether *)
Lemma start_init : forall s e root anon g tg, start s e root anon = Ok (g, tg) -> exists cs, init s e = Ok (g, cs).
Proof. intros s e root anon g tg H. unfold start in H. destruct (init s e) as [[g1 cs]|?|]; try discriminate. cbn [rbind fst snd] in H. destruct (init_tg _ _ _) as [?|?|]; try discriminate. cbn [rbind] in H. destruct (TyGraph.apply_chgs _ _ _ _) as [? [?|?|]]; try discriminate. injection H as -> _. eauto. Qed.
Section Top.
Variables (P : Type) (s : defs) (e : expr) (root : tkey) (anon : list tkey) (g : graph) (tg : tg_t) (rep : tkey -> ty) (progs : comp P ArgApi.binding cparam -> nat -> tkey -> prog P).
Variables (order : lmap -> lmap) (shuffle : list nat -> list nat) (seeds : list (str * ty)).
Hypothesis HS : start s e root anon = Ok (g, tg).
Hypothesis HL : has_literal_types (df_types s).
Hypothesis HD : distinct_params (df_impls s).
Hypothesis HR : forall t, key_of (rep t) = t.
Hypothesis HO : forall m, Permutation (order m) m.
Hypothesis HF : forall c cmd t, fair g (progs c cmd t).
Notation intr := (fun c cmd t => shown (run_intrinsic g c cmd t (progs c cmd t))).
Notation ca := (fun c d t => shown (call_args g c d t)).
Notation mp := (fun c d => shown (map_params g rep c d)).
Lemma state_ok : forall fuel brk c0 c, fresh P _ _ g order tg seeds = Good c0 -> compile g intr ca mp order shuffle fuel c0 brk = Good c ->
  exists cs0, init s e = Ok (g, cs0) /\ CompileInv.inv P _ _ g tg intr ca mp c /\ J P g rep order seeds c.
Proof.
  intros fuel brk c0 c F H. destruct (start_init _ _ _ _ _ _ HS) as (cs0 & HI). exists cs0. split; [auto|].
  pose proof (fresh_full P _ _ s e root anon g tg HS order seeds c0 F) as HN. pose proof (fresh_J P g rep order seeds tg c0 F) as J0.
  apply (fresh_inv P _ _ g tg intr ca mp) in F. destruct F as (I0 & _).
  exact (compile_J P g rep order shuffle seeds s e root anon tg cs0 progs HS HI HL HN HO HR HD HF fuel c0 brk c I0 J0 H).
Qed.
Lemma top_exprs : forall fuel brk c0 c, fresh P _ _ g order tg seeds = Good c0 -> compile g intr ca mp order shuffle fuel c0 brk = Good c ->
  forall x stack, has_stack c x stack -> exists t v, settles c x TyGraph.In_ t /\ settles c x TyGraph.Out_ v /\ runs g (answered intr c) (calls g c) (children g x) t v stack.
Proof. intros fuel brk c0 c F H x stack X. destruct (state_ok _ _ _ _ F H) as (cs0 & HI & I0 & J0). eapply (exprs_run P g rep order seeds tg progs); eauto. Qed.
Lemma top_root : forall fuel c stack, compile_root g intr ca mp order shuffle fuel tg seeds = Good (c, stack) ->
  exists v, settles c 0 TyGraph.Out_ v /\ runs g (answered intr c) (calls g c) (children g 0) root v stack.
Proof.
  intros fuel c stack H. pose proof (CompileTop.root_runs _ _ _ _ _ _ _ _ _ _ _ _ _ _ _ _ _ _ HS HL H) as (X & _ & I0 & _ & _).
  unfold compile_root in H. apply obind_good in H. destruct H as (c0 & H0 & H). apply obind_good in H. destruct H as (c1 & H1 & H). apply obind_good in H. destruct H as (st & H2 & H). injection H as -> ->.
  destruct (top_exprs _ _ _ _ H0 H1 _ _ X) as (t & v & S1 & S2 & R). assert (t = root) as -> by (eapply settles_fun; eauto). eauto.
Qed.
Lemma top_variables : forall fuel brk c0 c, fresh P _ _ g order tg seeds = Good c0 -> compile g intr ca mp order shuffle fuel c0 brk = Good c ->
  forall d t ps body y l, node g d = Some (NDef t ps) -> children g d = [body] -> declared c body y l -> exists j p n, parameter g d body j p n /\ fst p = y /\ serves c p n l.
Proof.
  intros fuel brk c0 c F H d t ps body y l N C D. destruct (state_ok _ _ _ _ F H) as (cs0 & HI & _ & hs & T & _).
  destruct (in_body P g rep order seeds s e cs0 HI HO hs c body y l T HR (body_def g _ _ _ _ N C) D) as (d' & j & p & n & PR & E & SV).
  assert (d' = d) as ->. { destruct PR as (o & k & e' & ps' & _ & _ & C' & _). eapply (body_fun g s e cs0 HI); [exact C|rewrite C'; now left]. } eauto 6.
Qed.
Lemma top_scope : forall fuel brk c0 c, fresh P _ _ g order tg seeds = Good c0 -> compile g intr ca mp order shuffle fuel c0 brk = Good c ->
  forall n x l, finds c n x l -> exists b, ahead g b n /\ declared c b (tg_str x) l /\ forall m, ahead g b m -> ahead g m n -> m <> b -> forall l', ~ declared c m (tg_str x) l'.
Proof. intros fuel brk c0 c F H n x l D. destruct (state_ok _ _ _ _ F H) as (cs0 & HI & _ & hs & T & _). eapply (found P g rep order seeds s e cs0 HI HO); eauto. Qed.
Lemma top_points : forall fuel brk c0 c, fresh P _ _ g order tg seeds = Good c0 -> compile g intr ca mp order shuffle fuel c0 brk = Good c ->
  forall n x to, finds c n x (EPtr to) -> written g to.
Proof.
  intros fuel brk c0 c F H n x to D. destruct (state_ok _ _ _ _ F H) as (cs0 & HI & _ & hs & T & _). apply finds_opt in D.
  eapply (points P g rep order seeds s e cs0 HI HO); eauto.
Qed.
Lemma fills_all : forall c body i ps ns cs, fills P c body i ps ns cs -> length ps = length ns /\ forall j p n, nth_error ps j = Some p -> nth_error ns j = Some n -> exists l, declared c body (fst p) l /\ serves c p n l.
Proof.
  intros c body i ps ns cs H. induction H as [i|i p ps n ns u slot cs CS D SV H (L & IH)|i p ps n ns cs CS D H (L & IH)].
  - split; [reflexivity|]. intros [|j] q m Z; discriminate.
  - split; [cbn; congruence|]. intros [|j] q m Z W; cbn in Z, W; [|eapply IH; eauto]. injection Z as <-. injection W as <-. exists (EVar u slot). cbn. auto.
  - split; [cbn; congruence|]. intros [|j] q m Z W; cbn in Z, W; [|eapply IH; eauto]. injection Z as <-. injection W as <-. exists (EPtr n). cbn. auto.
Qed.
Lemma top_all : forall fuel brk c0 c, fresh P _ _ g order tg seeds = Good c0 -> compile g intr ca mp order shuffle fuel c0 brk = Good c ->
  forall d t ps body o k n x l, node g d = Some (NDef t ps) -> children g d = [body] -> In (k, d) (keyed g o) -> ahead g body n -> finds c n x l ->
  flags_below g o = [] /\ length ps = length (firstn 256 (args_below g o)) /\
  forall j p m, nth_error ps j = Some p -> nth_error (args_below g o) j = Some m -> exists l, declared c body (fst p) l /\ serves c p m l.
Proof.
  intros fuel brk c0 c F H d t ps body o k n x l N C K A D. destruct (state_ok _ _ _ _ F H) as (cs0 & HI & _ & hs & T & HP & _).
  pose proof (found_set P g rep order seeds s e cs0 HI HO hs c d t ps body n x l T N C A D) as Z. unfold has in Z. destruct (alookup Nat.eqb d (c_params c)) as [cs|] eqn:L; [|discriminate].
  destruct (HP _ _ L) as (o1 & k1 & e1 & ps1 & body1 & K1 & N1 & C1 & FL & FI). rewrite N in N1. injection N1 as <- <-. assert (o1 = o) as -> by (eapply (one_op g s e root anon tg HS); eauto). assert (body1 = body) as -> by congruence.
  apply fills_all in FI. destruct FI as (LE & FI). split; [auto|]. split; [auto|]. intros j p m Jp Jm. eapply FI; [exact Jp|]. rewrite <- (firstn_skipn 256 (args_below g o)) in Jm. rewrite nth_error_app1 in Jm; [exact Jm|].
  rewrite <- LE. apply nth_error_Some. rewrite Jp. discriminate.
Qed.
End Top.
