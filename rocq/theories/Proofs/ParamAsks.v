(** What intrinsics and parameters ask for. *)
From Coq Require Import String List NArith ZArith Bool Arith Lia Permutation.
From Verif Require Import Model.Base Model.Value Model.Ast Model.Registry Model.AstGraph Model.TyBuild Spec.AstGraphSpec Spec.TyBuildSpec Spec.RegistrySpec Spec.LocalsSpec
  Model.Compile Model.ArgApi.
From Verif Require Model.TyGraph Model.Locals Proofs.LocalsGraphProofs Proofs.AstFlatProofs Proofs.AstExpandProofs.
From Verif Require Import Spec.CompileSpec Spec.ArgSpec Spec.ParamSpec Proofs.TyBuildBase Proofs.TyBuildNodes Proofs.CompileProofs Proofs.CompileInv Proofs.ArgProofs Proofs.CallProofs Proofs.ParamLocals.
Import ListNotations.
Import Locals.

Section P.
Variables (P : Type) (g : graph) (rep : tkey -> ty).
Variables (s0 : defs) (e0 : expr) (cs0 : list AstGraph.chg).
Hypothesis HI : init s0 e0 = Ok (g, cs0).
Let G : LocalsGraphProofs.good g := LocalsGraphProofs.init_good s0 e0 HI.
Notation comp := (comp P ArgApi.binding cparam).
Implicit Types c : comp.

(** Nothing is asked for the bodies of definitions. *)
Definition tame (a : ask) : Prop :=
  match a with
  | AskVar _ _ b => bodyb g b = false
  | AskLazy _ _ _ => False
  | AskSeal n => exists t, node g n = Some (NOp t)
  | AskBreak o a => in_graph g (BreakEdge o a)
  | _ => True
  end.
Lemma tame_ok : forall c a, tame a -> okc P g rep c (asked a).
Proof. intros c a H. destruct a; cbn in *; auto; try contradiction. intros B. congruence. Qed.
Lemma tame_names : forall l, Forall tame l -> gnames g (map asked l) = [].
Proof.
  induction l as [|a l IH]; intros F; [reflexivity|]. apply Forall_cons_iff in F. destruct F as (A & F). cbn [map]. change (asked a :: map asked l) with ([asked a] ++ map asked l).
  rewrite gnames_app, (IH F), app_nil_r. destruct a; cbn in *; auto; try contradiction. now rewrite A.
Qed.

(** Nothing is another name of anything but an argument. *)
Definition pointed c : Prop := forall n x b to, get_opt (c_lg c) n x = Ok (b, Some (EPtr to)) -> written g to.

Lemma follow_written : forall c, pointed c -> forall fuel n m, written g n -> follow g fuel c n = Good m -> written g m.
Proof.
  intros c PC. induction fuel as [|fuel IH]; intros n m W H; cbn [follow] in H; destruct (node g n) as [x|]; try discriminate; destruct x as [| | | | | | |t|]; try (injection H as <-; exact W);
    apply obind_good in H; destruct H as ([b l] & R & H); apply sure_good in R; cbn [snd] in H; destruct l as [[u s|to]|]; try discriminate; try (injection H as <-; exact W).
  eapply IH; [eapply PC; eauto|exact H].
Qed.
Lemma new_arg_written : forall c n blk b, pointed c -> written g n -> new_arg g c n blk = Good b -> written g (b_node b).
Proof.
  intros c n blk b PC W H. unfold new_arg in H. apply obind_good in H. destruct H as (i & _ & H). apply obind_good in H. destruct H as (o & _ & H). apply obind_good in H.
  destruct H as (m & M & H). injection H as <-. cbn. eapply follow_written; eauto.
Qed.
Lemma written_child : forall n, written g n -> exists o t, node g o = Some (NOp t) /\ In n (children g o).
Proof. intros n (o & t & N & J). apply filter_In in J. exists o, t. tauto. Qed.
Lemma next_op : forall o t n, node g o = Some (NOp t) -> op_next g o = Ok (Some n) -> exists t, node g n = Some (NOp t).
Proof.
  intros o t n N H. destruct (LocalsGraphProofs.op_has_parent G o N) as (e & te & Ne & J). apply in_split in J. destruct J as (l & r & J).
  rewrite (@LocalsGraphProofs.op_next_ok _ G _ _ _ _ _ Ne J) in H. destruct r as [|a r]; [discriminate|]. injection H as <-.
  assert (Ja : In a (children g e)) by (rewrite J; apply in_or_app; right; right; now left). exact (@LocalsGraphProofs.expr_child _ G _ _ _ Ne Ja).
Qed.
Lemma create_tame : forall c a t r asks, written g a -> create_var g c a t = Good (r, asks) -> Forall tame asks.
Proof.
  intros c a t r asks W H. unfold create_var in H. destruct (node g a) as [x|]; [|discriminate]. destruct x as [| | | | | | |x|]; try discriminate; try (injection H as <- <-; constructor).
  destruct (written_child _ W) as (o & t' & N & J). rewrite (@LocalsGraphProofs.arg_op_ok _ G _ _ J) in H. cbn [sure obind] in H. apply obind_good in H. destruct H as (n & R & H). apply sure_good in R.
  destruct n as [n|]; [|injection H as <- <-; constructor]. apply obind_good in H. destruct H as (v & _ & H). destruct v as [[u s|to]|ch]; try discriminate; injection H as <- <-; repeat constructor.
  cbn. destruct (next_op _ _ _ N R) as (tn & Nn). exact (op_no_body g s0 e0 cs0 HI _ _ Nn).
Qed.
Lemma inject_tame : forall c a x t r asks, written g a -> inject_var c a x t = Good (r, asks) -> Forall tame asks.
Proof.
  intros c a x t r asks W H. unfold inject_var in H. apply obind_good in H. destruct H as (v & _ & H). destruct v as [[u s|to]|ch]; try discriminate; injection H as <- <-; repeat constructor.
  cbn. exact (written_no_body g s0 e0 cs0 HI _ W).
Qed.
Lemma supplied_written : forall b t r asks, written g (b_node b) -> ArgApi.supplied b t = (r, asks) -> Forall tame asks /\ forall b', r = inl b' -> written g (b_node b').
Proof.
  intros b t r asks W H. unfold ArgApi.supplied in H. destruct (match t with Some t => Some t | None => b_blk b end) as [u|]; [|injection H as <- <-; split; [constructor|intros b' Z; injection Z as <-; auto]].
  destruct (b_in b) as [|v|ts] eqn:E; cbn [b_in] in H.
  - destruct (tkey_eqb u u); injection H as <- <-; (split; [constructor|]); intros b' Z; [injection Z as <-; exact W|discriminate].
  - rewrite E in H. destruct (tkey_eqb v u); injection H as <- <-; (split; [constructor|]); intros b' Z; [injection Z as <-; exact W|discriminate].
  - rewrite E in H. injection H as <- <-. split; [|intros b' Z; discriminate]. destruct (TyGraph.mem tkey_eqb u ts); repeat constructor.
Qed.
Lemma returns_written : forall b t r asks, written g (b_node b) -> returns b t = Good (r, asks) -> Forall tame asks /\ forall b', r = inl b' -> written g (b_node b').
Proof.
  intros b t r asks W H. unfold returns in H. destruct (b_out b) as [|v|ts]; [discriminate| |].
  - destruct (tkey_eqb v t); injection H as <- <-; (split; [constructor|]); intros b' Z; [injection Z as <-; exact W|discriminate].
  - injection H as <- <-. split; [|intros b' Z; discriminate]. destruct (TyGraph.mem tkey_eqb t ts); repeat constructor.
Qed.
Lemma last_in : forall X (l : list X) x, ArgApi.last_of l = Some x -> In x l.
Proof. induction l as [|y l IH]; intros x H; [discriminate|]. cbn in H. destruct l as [|z l]; [injection H as ->; now left|right; auto]. Qed.

Definition ready_block (b : ablock) : Prop :=
  (exists t, node g (k_op b) = Some (NOp t)) /\ Forall (fun n => In n (args_below g (k_op b))) (k_args b) /\ Forall tame (k_asks b).
Lemma ready_push : forall b l, ready_block b -> Forall tame l -> ready_block (push b l).
Proof. intros b l (A & B & C) F. split; [exact A|]. split; [exact B|]. cbn. apply Forall_app. auto. Qed.
Lemma exec_tame : forall c, pointed c -> forall p, fair g p -> forall b r, ready_block b -> exec g c b p = Good r -> Forall tame (r_asks r).
Proof.
  intros c PC p F. induction F as [t x|e|x k _ IH|k _ IH|t k _ IH|t k _ IH|rt k _ IH|k _ IH|a t k W _ IH|a x t k W _ IH|t k _ IH|k _ IH|k _ IH|b0 t k W _ IH|b0 t k W _ IH|b0 k W _ IH|b0 k W _ IH];
    intros b r R H; cbn [exec] in H.
  - injection H as <-. apply R.
  - injection H as <-. apply R.
  - destruct (take_flag x (k_flags b)) as [[f l]|]; eapply IH; [| exact H| |exact H]; auto.
  - destruct R as (R1 & R2 & R3). eapply IH; [|split; [exact R1|split; [exact R2|exact R3]]|exact H]. destruct R1 as (t & N). rewrite Forall_forall in R2.
    intros n [Z|Z]; exists (k_op b), t; (split; [exact N|]); apply R2; [destruct (k_args b); [discriminate|]; injection Z as ->; now left|now apply last_in].
  - eapply IH; [|exact H]. apply ready_push; [auto|repeat constructor].
  - eapply IH; [|exact H]. apply ready_push; [auto|repeat constructor].
  - eapply IH; [|exact H]. destruct rt; [exact R|]. apply ready_push; [exact R|]. cbn [k_op k_args]. destruct R as (R1 & R2 & _). apply Forall_forall. intros a J. apply in_map_iff in J. destruct J as (n & <- & J).
    apply in_rev in J. rewrite Forall_forall in R2. apply R2 in J. apply filter_In in J. split; [exact R1|apply J].
  - eapply IH; [|exact H]. apply ready_push; [auto|]. repeat constructor. apply R.
  - apply obind_good in H. destruct H as ([r0 asks] & C & H). eapply IH; [|exact H]. apply ready_push; [auto|]. eapply create_tame; eauto.
  - apply obind_good in H. destruct H as ([r0 asks] & C & H). eapply IH; [|exact H]. apply ready_push; [auto|]. eapply inject_tame; eauto.
  - eapply IH; [|exact H]. apply ready_push; [auto|]. apply Forall_forall. intros a J. apply in_map_iff in J. destruct J as (n & <- & _). exact I.
  - apply obind_good in H. destruct H as (o & _ & H). eapply IH; [|exact H]. destruct o; exact R.
  - destruct (k_args b) as [|n args] eqn:E; [eapply IH; [|exact R|exact H]; intros b' Z; discriminate|]. apply obind_good in H. destruct H as (a & A & H).
    destruct R as (R1 & R2 & R3). rewrite E in R2. apply Forall_cons_iff in R2. destruct R2 as (Rn & R2). eapply IH in H; [exact H| |split; [exact R1|split; [exact R2|exact R3]]].
    intros b' Z. injection Z as <-. destruct R1 as (t & N). eapply new_arg_written; [exact PC| |exact A]. exists (k_op b), t. auto.
  - destruct (ArgApi.supplied b0 t) as [r0 asks] eqn:S. destruct (supplied_written _ _ _ _ W S) as (T & Z). eapply IH; [exact Z| |exact H]. now apply ready_push.
  - apply obind_good in H. destruct H as ([r0 asks] & S & H). destruct (returns_written _ _ _ _ W S) as (T & Z). eapply IH; [exact Z| |exact H]. now apply ready_push.
  - apply obind_good in H. destruct H as (asks & D & H). eapply IH; [|exact H]. apply ready_push; [auto|]. unfold decouple in D. destruct (written_child _ W) as (o & t & N & J).
    rewrite (@LocalsGraphProofs.arg_op_ok _ G _ _ J) in D. injection D as <-. repeat constructor; eauto.
  - apply obind_good in H. destruct H as (a & _ & H). eapply IH; eauto.
Qed.

(** ** Arguments of calls *)
Lemma concrete_none : forall c args t p r asks, call_arg g c args t p = Good (r, asks) -> Forall tame asks.
Proof.
  intros c args t p r asks H. unfold call_arg in H. apply obind_good in H. destruct H as (n & _ & H). apply obind_good in H. destruct H as (b & _ & H).
  assert (S : forall b t r asks, ArgApi.supplied b t = (r, asks) -> Forall tame asks).
  { clear. intros b t r asks H. unfold ArgApi.supplied in H. destruct (match t with Some t => Some t | None => b_blk b end) as [u|]; [|injection H as <- <-; constructor].
    match type of H with match ?k with _ => _ end = _ => destruct k as [|v|ts] end; [injection H as <- <-; constructor|destruct (tkey_eqb v u); injection H as <- <-; constructor|].
    injection H as <- <-. destruct (TyGraph.mem tkey_eqb u ts); repeat constructor. }
  assert (R : forall b t r asks, returns b t = Good (r, asks) -> Forall tame asks).
  { clear. intros b t r asks H. unfold returns in H. destruct (b_out b) as [|v|ts]; [discriminate| |].
    - destruct (tkey_eqb v t); injection H as <- <-; constructor.
    - injection H as <- <-. destruct (TyGraph.mem tkey_eqb t ts); repeat constructor. }
  apply abind_asks in H. destruct H as (r1 & a1 & E1 & H). injection E1 as E1. apply S in E1. destruct H as [(er & _ & _ & ->)|(b1 & a2 & _ & H & ->)]; [auto|]. apply Forall_app. split; [auto|].
  apply abind_asks in H. destruct H as (r2 & a3 & E2 & H). assert (T3 : Forall tame a3) by (destruct (param_ty (cp_param p)); [now apply R in E2|injection E2 as _ <-; constructor]).
  destruct H as [(er & _ & _ & ->)|(b2 & a4 & _ & H & ->)]; [auto|]. apply Forall_app. split; [auto|]. apply obind_good in H. destruct H as (a & _ & H). injection H as _ <-. constructor.
Qed.
Lemma amapM_asks : forall X Y (f : X -> act Y), (forall x r asks, f x = Good (r, asks) -> Forall tame asks) -> forall l r asks, amapM f l = Good (r, asks) -> Forall tame asks.
Proof.
  intros X Y f HF. induction l as [|x l IH]; intros r asks H; cbn [amapM] in H; [injection H as _ <-; constructor|].
  apply abind_asks in H. destruct H as (r1 & a1 & E1 & H). apply HF in E1. destruct H as [(er & _ & _ & ->)|(y & a2 & _ & H & ->)]; [auto|]. apply Forall_app. split; [auto|].
  apply abind_asks in H. destruct H as (r2 & a3 & E2 & H). apply IH in E2. destruct H as [(er & _ & _ & ->)|(ys & a4 & _ & H & ->)]; [auto|]. apply Forall_app. split; [auto|]. injection H as _ <-. constructor.
Qed.
Lemma call_args_tame : forall c d t r asks, call_args g c d t = Good (r, asks) -> Forall tame asks.
Proof. intros c d t r asks H. unfold call_args in H. apply obind_good in H. destruct H as (args & _ & H). eapply amapM_asks; [|exact H]. intros p r0 a0 Z. eapply concrete_none; eauto. Qed.

(** ** Parameters *)
Lemma new_var_none : forall c n x t ch, new_var (c_lg c) n x t = Ok (inr ch) -> forall l, ~ declared c n x l.
Proof.
  intros c n x t ch H l (v & i & V & L & I). unfold new_var in H. rewrite V, L in H. cbn in H. rewrite Nat.eqb_refl, I in H. destruct l; discriminate.
Qed.
Lemma new_lazy_none : forall c n x t ch, new_lazy (c_lg c) n x t = Ok (inr ch) -> forall l, ~ declared c n x l.
Proof.
  intros c n x t ch H l (v & i & V & L & I). unfold new_lazy in H. rewrite V, L in H. cbn in H. rewrite Nat.eqb_refl, I in H. destruct l; discriminate.
Qed.
Definition new_in c x (ps : list aparam) (asks : list ask) : Prop :=
  NoDup (gnames g (map asked asks)) /\ forall b y, In (b, y) (gnames g (map asked asks)) -> b = x /\ In y (map fst ps) /\ forall l, ~ declared c x y l.
Lemma new_none : forall c x ps asks, gnames g (map asked asks) = [] -> new_in c x ps asks.
Proof. intros c x ps asks E. unfold new_in. rewrite E. split; [constructor|intros b y []]. Qed.
Lemma new_more : forall c x p ps asks, new_in c x ps asks -> new_in c x (p :: ps) asks.
Proof. intros c x p ps asks (N & H). split; [auto|]. intros b y J. destruct (H b y J) as (-> & J' & D). split; [auto|]. split; [now right|auto]. Qed.
Lemma new_cons : forall c x p ps a asks, ~ In (fst p) (map fst ps) -> new_in c x ps asks -> gnames g [asked a] = [] \/ gnames g [asked a] = [(x, fst p)] /\ (forall l, ~ declared c x (fst p) l) -> new_in c x (p :: ps) (a :: asks).
Proof.
  intros c x p ps a asks NI (N & H) [E|(E & D)]; unfold new_in; cbn [map]; change (asked a :: map asked asks) with ([asked a] ++ map asked asks); rewrite gnames_app, E.
  - now apply new_more.
  - cbn [app]. split; [constructor; [|auto]; intros J; apply H in J; tauto|]. intros b y [J|J]; [injection J as <- <-; split; [auto|split; [now left|auto]]|]. destruct (H b y J) as (-> & J' & D'). split; [auto|]. split; [now right|auto].
Qed.
Lemma callsite_new : forall c n x idx p r asks, bodyb g x = true -> map_callsite g rep c n x idx p = Good (r, asks) ->
  gnames g (map asked asks) = [] \/ exists t, asks = [AskVar (fst p) (rep t) x] /\ forall l, ~ declared c x (fst p) l.
Proof.
  intros c n x idx p r asks B H. unfold map_callsite in H. apply obind_good in H. destruct H as (b & _ & H). apply obind_good in H. destruct H as ([r1 a1] & R & H). cbn [fst snd] in H.
  assert (Q : gnames g (map asked a1) = [] /\ forall b', r1 = inl b' -> a1 = []).
  { destruct (param_ty p) as [u|]; [|injection R as <- <-; auto]. split.
    - unfold returns in R. destruct (b_out b) as [|v|ts]; [discriminate| |]; [destruct (tkey_eqb v u); injection R as <- <-; reflexivity|]. injection R as <- <-. destruct (TyGraph.mem tkey_eqb u ts); reflexivity.
    - intros b' ->. apply returns_ok in R. tauto. }
  destruct Q as (Q & Q1). destruct r1 as [b'|er]; [|injection H as <- <-; auto]. specialize (Q1 _ eq_refl). subst a1.
  apply obind_good in H. destruct H as (v & _ & H).
  assert (K : forall o : option tkey, match o return act ArgApi.mapped with
    | None => say (Stop (UnknownReturnTy cparam)) []
    | Some t => let! v := sure (new_var (c_lg c) x (fst p) (rep t)) in
        match v with
        | inl (EVar ty slot) => say (Bound (CParam p ty slot idx)) []
        | inl (EPtr _) => Crash Missing
        | inr _ => say Asked ([] ++ [AskVar (fst p) (rep t) x])
        end
    end = Good (r, asks) -> gnames g (map asked asks) = [] \/ exists t, asks = [AskVar (fst p) (rep t) x] /\ forall l, ~ declared c x (fst p) l).
  { intros [t|] Z; [|injection Z as <- <-; auto]. apply obind_good in Z. destruct Z as (nv & NV & Z). apply sure_good in NV. destruct nv as [[u s|to]|ch]; [injection Z as <- <-; auto|discriminate|].
    injection Z as <- <-. right. exists t. split; [reflexivity|]. eapply new_var_none; eauto. }
  destruct v as [[[|]|]|er]; try (eapply K; exact H); injection H as <- <-; auto.
Qed.
Lemma loop_new : forall c x, bodyb g x = true -> forall ps ns i acc chg r asks, NoDup (map fst ps) -> map_loop g rep c x ps ns i acc chg = Good (r, asks) -> new_in c x ps asks.
Proof.
  intros c x B. induction ps as [|p ps IH]; intros ns i acc chg r asks N H; cbn [map_loop] in H.
  - destruct ns as [|n ns]; [destruct chg|]; injection H as <- <-; now apply new_none.
  - cbn in N. apply NoDup_cons_iff in N. destruct N as (NI & N). destruct ns as [|n ns]; [injection H as <- <-; now apply new_none|]. destruct (callsite p) eqn:C.
    + apply abind_asks in H. destruct H as (r1 & a1 & M & H). apply callsite_new in M; [|auto].
      assert (T : exists a2, asks = a1 ++ a2 /\ new_in c x ps a2).
      { destruct H as [(er & _ & _ & ->)|(m & a2 & _ & H & ->)]; [exists []; split; [now rewrite app_nil_r|now apply new_none]|]. exists a2. split; [auto|].
        destruct m as [cp| |st]; [eapply IH; eauto|eapply IH; eauto|injection H as <- <-; now apply new_none]. }
      destruct T as (a2 & -> & T). destruct M as [M|(t & -> & D)].
      * apply (new_more c x p) in T. destruct T as (T1 & T2). unfold new_in. rewrite map_app, gnames_app, M. split; auto.
      * cbn [app]. apply new_cons; auto. right. split; [|auto]. cbn. now rewrite B.
    + apply obind_good in H. destruct H as ([b a1] & M & H). cbn [fst snd] in H. apply abind_asks in H. destruct H as (r1 & a2 & E & H). injection E as <- <-.
      destruct H as [(er & Z & _)|(y & a3 & _ & H & ->)]; [discriminate|]. apply IH in H; [|auto]. unfold map_lazy in M. apply obind_good in M. destruct M as (v & V & M). apply sure_good in V.
      destruct v as [[]|ch]; injection M as <- <-; [now apply new_more|]. cbn [app]. apply new_cons; auto. right. split; [cbn; now rewrite B|]. eapply new_lazy_none; eauto.
Qed.

(** Parameters have different names. *)
Lemma params_nodup : forall m, made m g -> distinct_params m -> forall d e ps, node g d = Some (NDef e ps) -> NoDup (map fst ps).
Proof.
  intros m M D d e ps N. destruct (cmd_parent_ok _ _ M d _ N I) as (o & t & k & No & _ & K & _). destruct (m_ops _ _ M o t No) as (ks & l & L & L1 & E & F). rewrite E in K. apply in_map_iff in K.
  destruct K as (p & Ep & Ip). rewrite Forall_forall in F. specialize (F p Ip). injection Ep as _ Ed. rewrite Ed in F.
  assert (KP : forall l l', kept_of (recursive_use g o t) l l' -> forall x, In x l' -> In x l).
  { clear. intros l l' H. induction H; intros y J; [destruct J|destruct J as [<-|J]; [now left|right; auto]|right; auto]. }
  pose proof (KP _ _ L1 (fst p) (in_map fst _ _ Ip)) as R. destruct p as [[kt im] n]. cbn in *. destruct im as [x f|df]; [destruct F as (t' & F); congruence|].
  destruct F as ((ps' & F1 & F2) & _). rewrite N in F1. injection F1 as _ <-. rewrite F2. eapply D; eauto.
Qed.
End P.
