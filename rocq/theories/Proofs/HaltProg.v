(** What ogma's intrinsics, calls and parameters ask for when they cannot go on yet is modest. *)
From Coq Require Import String List NArith ZArith Bool Arith Lia Permutation.
From Verif Require Import Model.Base Model.Value Model.Ast Model.Registry Model.AstGraph Model.TyBuild Spec.AstGraphSpec Spec.TyBuildSpec Spec.RegistrySpec Spec.LocalsSpec
  Model.Compile Model.ArgApi Model.Get Model.Ops.
From Verif Require Model.TyGraph Model.Locals Proofs.LocalsGraphProofs Proofs.LocalsTop Proofs.AstFlatProofs Proofs.AstExpandProofs.
From Verif Require Import Spec.CompileSpec Spec.ArgSpec Spec.ParamSpec Spec.HaltSpec Proofs.TyBuildBase Proofs.TyBuildNodes Proofs.CompileProofs Proofs.CompileInv Proofs.ArgProofs Proofs.CallProofs
  Proofs.ParamLocals Proofs.ParamAsks Proofs.ParamInv.
Import ListNotations.
Import Locals.

Definition is_intr (x : anode) : bool := match x with NIntrinsic _ _ => true | _ => false end.

Section P.
Variables (P : Type) (g : graph) (rep : tkey -> ty) (order : lmap -> lmap) (seeds : list (str * ty)).
Variables (s : defs) (e : expr) (root : tkey) (anon : list tkey) (tg0 : tg_t) (cs0 : list AstGraph.chg).
Hypothesis HS : start s e root anon = Ok (g, tg0).
Hypothesis HI : init s e = Ok (g, cs0).
Hypothesis HO : forall m, Permutation (order m) m.
Let G : LocalsGraphProofs.good g := LocalsGraphProofs.init_good s e HI.
Let M : made (df_impls s) g := CallProofs.made_g g s e root anon tg0 HS.
Notation comp := (comp P ArgApi.binding cparam).
Implicit Types c : comp.
Notation tells := (tells P g rep order seeds).

Definition fixed_ty c (o : nat) : option tkey := match kn c o TyGraph.In_ with Some (TyGraph.Known t) | Some (TyGraph.Obliged t) => Some t | _ => None end.
(** An argument of a block that is an intrinsic. *)
Definition own c (n : nat) : bool :=
  existsb (fun o => existsb (Nat.eqb n) (args_below g o) &&
    match fixed_ty c o with
    | Some t => match key_impl g o t with Some cmd => at_is g is_intr cmd | None => false end
    | None => false
    end) (TyBuild.indices g TyBuild.is_op).
Definition told c (p : TyGraph.slot) : bool :=
  match snd p with TyGraph.In_ => negb (own c (fst p)) | TyGraph.Out_ => at_is g TyBuild.is_op (fst p) end.
Definition node_names (x : anode) : list str := match x with NVar t => [tg_str t] | NDef _ ps => map fst ps | _ => [] end.
Definition var_names : list str := lit "row" :: flat_map node_names (g_nodes g).
Notation modest c := (modest var_names (told c) c).

Lemma fixed_iff : forall c o t, fixed_ty c o = Some t <-> settles c o TyGraph.In_ t.
Proof.
  intros c o t. unfold fixed_ty, settles, TyGraphSpec.settled, kn. destruct (TyGraph.kn_at (fst (c_tg c)) (o, TyGraph.In_)) as [[|u|u|ts]|]; split; intros H; try discriminate; try (destruct H; discriminate).
  all: try (destruct H; congruence). all: injection H as <-; auto.
Qed.
Lemma own_iff : forall c n, own c n = true <-> exists o to t cmd, node g o = Some (NOp to) /\ In n (args_below g o) /\ settles c o TyGraph.In_ t /\ key_impl g o t = Some cmd /\ at_is g is_intr cmd = true.
Proof.
  intros c n. unfold own. rewrite existsb_exists. split.
  - intros (o & Jo & H). apply andb_true_iff in H. destruct H as (A & H). apply existsb_exists in A. destruct A as (n' & A & E). apply Nat.eqb_eq in E. subst n'.
    destruct (fixed_ty c o) as [t|] eqn:F; [|discriminate]. destruct (key_impl g o t) as [cmd|] eqn:K; [|discriminate]. apply fixed_iff in F. unfold TyBuild.indices in Jo. apply filter_In in Jo. destruct Jo as (_ & Jo).
    destruct (node g o) as [[]|] eqn:N; try discriminate. eauto 10.
  - intros (o & to & t & cmd & N & A & F & K & C). exists o. split.
    + unfold TyBuild.indices. apply filter_In. rewrite N. split; [|reflexivity]. apply in_seq. assert (o < length (g_nodes g)); [|lia]. apply nth_error_Some. unfold node in N. congruence.
    + apply andb_true_iff. split; [apply existsb_exists; exists n; split; [auto|apply Nat.eqb_refl]|]. apply fixed_iff in F. now rewrite F, K.
Qed.
Lemma written_out : forall c n, written g n -> told c (n, TyGraph.Out_) = false.
Proof.
  intros c n (o & t & N & J). unfold told. cbn. apply filter_In in J. destruct J as (J & _). destruct (at_is g TyBuild.is_op n) eqn:A; [|auto]. unfold at_is in A. destruct (node g n) as [[]|] eqn:Nn; try discriminate.
  destruct (LocalsGraphProofs.op_has_parent G n Nn) as (x & tx & Nx & Jx). pose proof (LocalsGraphProofs.child_unique G _ _ _ J Jx) as <-. congruence.
Qed.
Lemma body_told : forall c d y ps n, node g d = Some (NDef y ps) -> def_expr g d = Ok n -> told c (n, TyGraph.In_) = true.
Proof.
  intros c d y ps n Nd D. unfold told. cbn. apply negb_true_iff. destruct (own c n) eqn:O; [|auto]. apply own_iff in O. destruct O as (o & to & t & cmd & N & A & _).
  assert (W : written g n) by (exists o, to; auto). pose proof (written_no_body g s e cs0 HI n W) as B.
  destruct (def_expr_ok _ _ M d y ps Nd) as (x & tx & E & C & _). rewrite D in E. injection E as <-.
  rewrite (body_def g _ _ _ _ Nd C) in B. discriminate.
Qed.

(** What is another name of an argument of a call is not an argument of an intrinsic. *)
Lemma pointer_told : forall hs c n x b to, tells hs c -> get_opt (c_lg c) n x = Ok (b, Some (EPtr to)) -> written g to /\ told c (to, TyGraph.In_) = true.
Proof.
  intros hs c n x b to T H. split; [eapply (points P g rep order seeds s e cs0 HI HO); eauto|].
  destruct (opt_visible P g rep order seeds s e cs0 HI HO _ _ _ _ _ _ T H) as (_ & d & V). destruct (@LocalsTop.closest s e g cs0 _ _ _ _ _ HI V) as (_ & B & _).
  apply bound_change in B; [|right; eauto]. destruct T as (_ & _ & SF & _). rewrite Forall_forall in SF. apply SF in B. cbn [sound] in B.
  destruct B as (df & j & p & (o & k & e1 & ps & K & N & C & J1 & J2) & _ & _ & (o2 & k2 & K2 & CD)).
  assert (o2 = o) as -> by (destruct (cmd_parent_ok _ _ M df _ N I) as (o1 & t & k1 & _ & _ & _ & _ & U); destruct (U _ _ K) as (-> & _); destruct (U _ _ K2) as (-> & _); auto).
  unfold told. cbn. apply negb_true_iff. destruct (own c to) eqn:O; [|auto]. apply own_iff in O. destruct O as (o' & to' & t & cmd & No & A & F & KI & IC).
  apply nth_error_In in J2. apply filter_In in J2. destruct J2 as (J2 & _). apply filter_In in A. destruct A as (A & _). pose proof (LocalsGraphProofs.child_unique G _ _ _ A J2) as ->.
  assert (cmd = df); [|subst cmd; unfold at_is in IC; rewrite N in IC; discriminate]. destruct CD as [(t' & F' & KI')|CD].
  - assert (t' = t) as -> by (eapply settles_fun; eauto). congruence.
  - apply impl_chosen in KI. destruct KI as [(k' & K' & _)|(K' & _)]; eapply CD; eauto.
Qed.

(** ** Builders *)
Definition okb c (b : builder) : Prop := written g (b_node b) /\ forall ts, b_in b = KnTys ts -> told c (b_node b, TyGraph.In_) = true \/ loose c (b_node b, TyGraph.In_).
Lemma follow_told : forall hs c, tells hs c -> forall fuel n m, written g n -> follow g fuel c n = Good m -> m = n \/ written g m /\ told c (m, TyGraph.In_) = true.
Proof.
  intros hs c T. induction fuel as [|fuel IH]; intros n m W H; cbn [follow] in H; destruct (node g n) as [x|]; try discriminate; destruct x as [| | | | | | |t|]; try (injection H as <-; now left);
    apply obind_good in H; destruct H as ([b l] & R & H); apply sure_good in R; cbn [snd] in H; destruct l as [[u sl|to]|]; try discriminate; try (injection H as <-; now left).
  destruct (pointer_told _ _ _ _ _ _ T R) as (W' & Z). right. apply IH in H; [|auto]. destruct H as [->|H]; auto.
Qed.
Lemma new_arg_okb : forall hs c n blk b, tells hs c -> written g n -> new_arg g c n blk = Good b -> okb c b.
Proof.
  intros hs c n blk b T W H. unfold new_arg in H. apply obind_good in H. destruct H as (i & Ei & H). apply expect_good in Ei. apply obind_good in H. destruct H as (o & _ & H). apply obind_good in H.
  destruct H as (m & F & H). injection H as <-. apply (follow_told _ _ T) in F; [|auto]. unfold okb. cbn [b_node b_in]. destruct F as [->|(W' & Z)]; [|auto]. split; [auto|]. intros ts E. right.
  unfold loose. unfold kn in Ei. rewrite Ei. destruct i as [|u|u|l]; cbn in E; try discriminate; auto.
Qed.
Lemma supplied_okb : forall c b t r asks, okb c b -> ArgApi.supplied b t = (r, asks) -> Forall (modest c) asks /\ forall b', r = inl b' -> okb c b'.
Proof.
  intros c b t r asks (W & Q) H. unfold ArgApi.supplied in H. destruct (match t with Some t => Some t | None => b_blk b end) as [u|]; [|injection H as <- <-; split; [constructor|intros b' Z; injection Z as <-; split; auto]].
  destruct (b_in b) as [|v|ts] eqn:E; cbn [b_in] in H.
  - destruct (tkey_eqb u u); injection H as <- <-; (split; [constructor|]); intros b' Z; [injection Z as <-; split; [exact W|]; cbn; intros ts Z; discriminate|discriminate].
  - rewrite E in H. destruct (tkey_eqb v u); injection H as <- <-; (split; [constructor|]); intros b' Z; [injection Z as <-; split; [exact W|]; rewrite E; intros ts Z; discriminate|discriminate].
  - rewrite E in H. injection H as <- <-. split; [|intros b' Z; discriminate]. destruct (TyGraph.mem tkey_eqb u ts); [|constructor]. constructor; [|constructor]. exact (Q _ eq_refl).
Qed.
Lemma returns_okb : forall c b t r asks, okb c b -> returns b t = Good (r, asks) -> Forall (modest c) asks /\ forall b', r = inl b' -> okb c b'.
Proof.
  intros c b t r asks W H. unfold returns in H. destruct (b_out b) as [|v|ts]; [discriminate| |].
  - destruct (tkey_eqb v t); injection H as <- <-; (split; [constructor|]); intros b' Z; [injection Z as <-; exact W|discriminate].
  - injection H as <- <-. split; [|intros b' Z; discriminate]. destruct (TyGraph.mem tkey_eqb t ts); [|constructor]. constructor; [|constructor]. left. apply written_out. apply W.
Qed.

(** ** Variables *)
Lemma var_unnamed : forall c n x t ch, new_var (c_lg c) n x t = Ok (inr ch) -> unnamed (c_lg c) x n.
Proof. intros c n x t ch H v l V L E. unfold new_var in H. rewrite V, L, E, Nat.eqb_refl in H. destruct (nth_error (lg_locals (c_lg c)) (lo_idx l)) as [[]|]; discriminate. Qed.
Lemma lazy_unnamed : forall c n x t ch, new_lazy (c_lg c) n x t = Ok (inr ch) -> unnamed (c_lg c) x n.
Proof. intros c n x t ch H v l V L E. unfold new_lazy in H. rewrite V, L, E, Nat.eqb_refl in H. destruct (nth_error (lg_locals (c_lg c)) (lo_idx l)) as [[]|]; discriminate. Qed.
Lemma node_named : forall n x y, node g n = Some x -> In y (node_names x) -> In y var_names.
Proof. intros n x y N J. right. apply in_flat_map. exists x. split; [eapply nth_error_In; exact N|auto]. Qed.
Lemma create_modest : forall c a t r asks, create_var g c a t = Good (r, asks) -> Forall (modest c) asks.
Proof.
  intros c a t r asks H. unfold create_var in H. destruct (node g a) as [x|] eqn:N; [|discriminate]. destruct x as [| | | | | | |x|]; try discriminate; try (injection H as <- <-; constructor).
  apply obind_good in H. destruct H as (o & _ & H). apply obind_good in H. destruct H as (n & R & H).
  destruct n as [n|]; [|injection H as <- <-; constructor]. apply obind_good in H. destruct H as (v & V & H). apply sure_good in V. destruct v as [[u sl|to]|ch]; try discriminate; injection H as <- <-; [constructor|]. constructor; [split|constructor].
  - eapply node_named; [exact N|now left].
  - eapply var_unnamed; eauto.
Qed.
Lemma inject_modest : forall c a x t r asks, In x var_names -> inject_var c a x t = Good (r, asks) -> Forall (modest c) asks.
Proof.
  intros c a x t r asks W H. unfold inject_var in H. apply obind_good in H. destruct H as (v & V & H). apply sure_good in V. destruct v as [[u sl|to]|ch]; try discriminate; injection H as <- <-; [constructor|]. constructor; [split; [exact W|]|constructor].
  eapply var_unnamed; eauto.
Qed.

(** ** Intrinsics *)
Inductive quiet c : ArgApi.prog P -> Prop :=
| quiet_eval : forall t x, quiet c (PEval t x)
| quiet_fail : forall e, quiet c (PFail P e)
| quiet_flag : forall x k, (forall f, quiet c (k f)) -> quiet c (PFlag x k)
| quiet_peek : forall k, (forall a b, quiet c (k a b)) -> quiet c (PPeek k)
| quiet_says : forall t k, quiet c k -> quiet c (PSays t k)
| quiet_adds : forall b k, quiet c k -> quiet c (PAddsVars b k)
| quiet_added : forall k, quiet c k -> quiet c (PVarsAdded k)
| quiet_create : forall a t k, (forall r, quiet c (k r)) -> quiet c (PCreate a t k)
| quiet_inject : forall a x t k, In x var_names -> (forall r, quiet c (k r)) -> quiet c (PInject a x t k)
| quiet_oblige : forall t k, quiet c k -> quiet c (POblige t k)
| quiet_output : forall k, (forall t, quiet c (k t)) -> quiet c (POutput k)
| quiet_next : forall k, (forall r, (forall b, r = inl b -> okb c b) -> quiet c (k r)) -> quiet c (PNext k)
| quiet_supplied : forall b t k, okb c b -> (forall r, (forall b, r = inl b -> okb c b) -> quiet c (k r)) -> quiet c (PSupplied b t k)
| quiet_returns : forall b t k, okb c b -> (forall r, (forall b, r = inl b -> okb c b) -> quiet c (k r)) -> quiet c (PReturns b t k)
| quiet_decouple : forall b k, quiet c k -> quiet c (PDecouple b k)
| quiet_concrete : forall b k, (forall r, quiet c (k r)) -> quiet c (PConcrete b k).

Definition ready_blk c (b : ablock) : Prop :=
  (exists t, node g (k_op b) = Some (NOp t)) /\ Forall (fun n => In n (args_below g (k_op b))) (k_args b) /\
  (forall n, In n (args_below g (k_op b)) -> own c n = true) /\ Forall (modest c) (k_asks b).
Lemma ready_push' : forall c b l, ready_blk c b -> Forall (modest c) l -> ready_blk c (push b l).
Proof. intros c b l (A & B & C & D) F. split; [exact A|]. split; [exact B|]. split; [exact C|]. cbn. apply Forall_app. auto. Qed.
Lemma says_modest : forall c b t, ready_blk c b -> modest c (AskOutput (k_op b) t).
Proof. intros c b t ((t' & N) & _). left. unfold told. cbn. unfold at_is. now rewrite N. Qed.
Lemma exec_modest : forall hs c, tells hs c -> forall p, quiet c p -> forall b r, ready_blk c b -> exec g c b p = Good r -> Forall (modest c) (r_asks r).
Proof.
  intros hs c T p F. induction F as [t x|e1|x k _ IH|k _ IH|t k _ IH|rt k _ IH|k _ IH|a t k _ IH|a x t k W _ IH|t k _ IH|k _ IH|k _ IH|b0 t k W _ IH|b0 t k W _ IH|b0 k _ IH|b0 k _ IH];
    intros b r R H; cbn [exec] in H.
  - injection H as <-. apply R.
  - injection H as <-. apply R.
  - destruct (take_flag x (k_flags b)) as [[f l]|]; eapply IH; [| exact H| |exact H]; auto.
  - eapply IH; [exact R|exact H].
  - eapply IH; [|exact H]. apply ready_push'; [auto|]. constructor; [|constructor]. now apply says_modest.
  - eapply IH; [|exact H]. destruct rt; [exact R|]. apply ready_push'; [exact R|]. cbn [k_op k_args]. apply Forall_forall. intros a J. apply in_map_iff in J. destruct J as (n & <- & J). exact Logic.I.
  - eapply IH; [|exact H]. apply ready_push'; [auto|]. repeat constructor.
  - apply obind_good in H. destruct H as ([r0 asks] & C & H). eapply IH; [|exact H]. apply ready_push'; [auto|]. eapply create_modest; eauto.
  - apply obind_good in H. destruct H as ([r0 asks] & C & H). eapply IH; [|exact H]. apply ready_push'; [auto|]. eapply inject_modest; eauto.
  - eapply IH; [|exact H]. apply ready_push'; [auto|]. apply Forall_forall. intros a J. apply in_map_iff in J. destruct J as (n & <- & J). left. unfold told. cbn. apply negb_false_iff.
    destruct R as (_ & R2 & R3 & _). apply R3. rewrite Forall_forall in R2. apply R2. now apply in_rev.
  - apply obind_good in H. destruct H as (o & _ & H). eapply IH; [|exact H]. destruct o; exact R.
  - destruct (k_args b) as [|n args] eqn:E; [eapply IH; [|exact R|exact H]; intros b' Z; discriminate|]. apply obind_good in H. destruct H as (a & A & H).
    destruct R as (R1 & R2 & R3 & R4). rewrite E in R2. apply Forall_cons_iff in R2. destruct R2 as (Rn & R2). eapply IH in H; [exact H| |split; [exact R1|split; [exact R2|split; [exact R3|exact R4]]]].
    intros b' Z. injection Z as <-. destruct R1 as (t & N). eapply new_arg_okb; [exact T| |exact A]. exists (k_op b), t. auto.
  - destruct (ArgApi.supplied b0 t) as [r0 asks] eqn:S0. destruct (supplied_okb _ _ _ _ _ W S0) as (T0 & Z). eapply IH; [exact Z| |exact H]. now apply ready_push'.
  - apply obind_good in H. destruct H as ([r0 asks] & S0 & H). destruct (returns_okb _ _ _ _ _ W S0) as (T0 & Z). eapply IH; [exact Z| |exact H]. now apply ready_push'.
  - apply obind_good in H. destruct H as (asks & D & H). eapply IH; [|exact H]. apply ready_push'; [auto|]. unfold decouple in D. apply obind_good in D. destruct D as (o & _ & D). injection D as <-. repeat constructor.
  - apply obind_good in H. destruct H as (a & _ & H). eapply IH; eauto.
Qed.

(** ** Calls *)
Lemma call_arg_modest : forall hs c args t p r asks, tells hs c -> Forall (written g) args -> call_arg g c args t p = Good (r, asks) -> Forall (modest c) asks.
Proof.
  intros hs c args t p r asks T W H. unfold call_arg in H. apply obind_good in H. destruct H as (n & N & H). apply expect_good in N. apply obind_good in H. destruct H as (b & B & H).
  apply nth_error_In in N. rewrite Forall_forall in W. apply (new_arg_okb _ _ _ _ _ T (W _ N)) in B.
  apply abind_asks in H. destruct H as (r1 & a1 & E1 & H). injection E1 as E1. apply supplied_okb with (c := c) in E1; [|auto]. destruct E1 as (F1 & Z1). destruct H as [(er & _ & _ & ->)|(b1 & a2 & EB & H & ->)]; [auto|]. apply Forall_app. split; [auto|].
  specialize (Z1 _ EB). apply abind_asks in H. destruct H as (r2 & a3 & E2 & H).
  assert (T3 : Forall (modest c) a3) by (destruct (param_ty (cp_param p)); [apply returns_okb with (c := c) in E2; [apply E2|auto]|injection E2 as _ <-; constructor]).
  destruct H as [(er & _ & _ & ->)|(b2 & a4 & _ & H & ->)]; [auto|]. apply Forall_app. split; [auto|]. apply obind_good in H. destruct H as (a & _ & H). injection H as _ <-. constructor.
Qed.
Lemma amapM_modest : forall c X Y (f : X -> act Y), (forall x r asks, f x = Good (r, asks) -> Forall (modest c) asks) -> forall l r asks, amapM f l = Good (r, asks) -> Forall (modest c) asks.
Proof.
  intros c X Y f HF. induction l as [|x l IH]; intros r asks H; cbn [amapM] in H; [injection H as _ <-; constructor|].
  apply abind_asks in H. destruct H as (r1 & a1 & E1 & H). apply HF in E1. destruct H as [(er & _ & _ & ->)|(y & a2 & _ & H & ->)]; [auto|]. apply Forall_app. split; [auto|].
  apply abind_asks in H. destruct H as (r2 & a3 & E2 & H). apply IH in E2. destruct H as [(er & _ & _ & ->)|(ys & a4 & _ & H & ->)]; [auto|]. apply Forall_app. split; [auto|]. injection H as _ <-. constructor.
Qed.
Lemma def_args : forall d y ps, node g d = Some (NDef y ps) -> exists args, get_args g d = Ok args /\ Forall (written g) args.
Proof.
  intros d y ps N. destruct (cmd_parent_ok _ _ M d _ N I) as (o & t & k & No & _ & K & _). exists (firstn 256 (args_below g o)). split; [eapply get_args_all; eauto|].
  apply Forall_forall. intros n J. exists o, t. split; [auto|]. rewrite <- (firstn_skipn 256 (args_below g o)). apply in_or_app. now left.
Qed.
Lemma calls_modest : forall hs c d y ps t r asks, tells hs c -> node g d = Some (NDef y ps) -> call_args g c d t = Good (r, asks) -> Forall (modest c) asks.
Proof.
  intros hs c d y ps t r asks T N H. destruct (def_args _ _ _ N) as (args & A & W). unfold call_args in H. rewrite A in H. cbn [sure obind] in H. eapply amapM_modest; [|exact H].
  intros p r0 a0 Z. eapply call_arg_modest; eauto.
Qed.

(** ** Parameters *)
Lemma callsite_modest : forall hs c n x idx p r asks, tells hs c -> written g n -> In (fst p) var_names -> map_callsite g rep c n x idx p = Good (r, asks) -> Forall (modest c) asks.
Proof.
  intros hs c n x idx p r asks T W NM H. unfold map_callsite in H. apply obind_good in H. destruct H as (b & B & H). apply (new_arg_okb _ _ _ _ _ T W) in B.
  apply obind_good in H. destruct H as ([r1 a1] & R & H). cbn [fst snd] in H.
  assert (F1 : Forall (modest c) a1) by (destruct (param_ty p); [apply returns_okb with (c := c) in R; [apply R|auto]|injection R as _ <-; constructor]).
  destruct r1 as [b'|er]; [|injection H as <- <-; auto]. apply obind_good in H. destruct H as (v & _ & H).
  assert (K : forall o : option tkey, match o return act ArgApi.mapped with
    | None => say (Stop (UnknownReturnTy cparam)) a1
    | Some t => let! v := sure (new_var (c_lg c) x (fst p) (rep t)) in
        match v with
        | inl (EVar ty slot) => say (Bound (CParam p ty slot idx)) a1
        | inl (EPtr _) => Crash Missing
        | inr _ => say Asked (a1 ++ [AskVar (fst p) (rep t) x])
        end
    end = Good (r, asks) -> Forall (modest c) asks).
  { intros [t|] K; [|injection K as <- <-; auto]. apply obind_good in K. destruct K as (v' & V & K). apply sure_good in V. destruct v' as [[u sl|to]|ch]; try discriminate; injection K as <- <-; [auto|].
    apply Forall_app. split; [auto|]. constructor; [split; [exact NM|]|constructor]. eapply var_unnamed; eauto. }
  destruct v as [[[|]|]|er]; try (exact (K _ H)); injection H as <- <-; auto.
Qed.
Lemma loop_modest : forall hs c x, tells hs c -> forall ps args idx acc chg r asks, Forall (fun p => In (fst p) var_names) ps -> Forall (written g) args ->
  map_loop g rep c x ps args idx acc chg = Good (r, asks) -> Forall (modest c) asks.
Proof.
  intros hs c x T. induction ps as [|p ps IH]; intros args idx acc chg r asks NM W H; cbn [map_loop] in H.
  - destruct args; [destruct chg|]; injection H as <- <-; constructor.
  - destruct args as [|n args]; [injection H as <- <-; constructor|]. apply Forall_cons_iff in NM. destruct NM as (NM & NMs). apply Forall_cons_iff in W. destruct W as (W & Ws). destruct (callsite p).
    + apply abind_asks in H. destruct H as (r1 & a1 & E1 & H). apply (callsite_modest _ _ _ _ _ _ _ _ T W NM) in E1. destruct H as [(er & _ & _ & ->)|(y & a2 & _ & H & ->)]; [auto|]. apply Forall_app. split; [auto|].
      destruct y as [cp| |i]; [eapply IH; eauto|eapply IH; eauto|injection H as <- <-; constructor].
    + apply obind_good in H. destruct H as ([b1 a1] & E1 & H). cbn [fst snd] in H. apply abind_asks in H. destruct H as (r1 & a2 & E2 & H). injection E2 as <- <-.
      assert (F1 : Forall (modest c) a1).
      { unfold map_lazy in E1. apply obind_good in E1. destruct E1 as (v & V & E1). apply sure_good in V. injection E1 as E1. destruct v as [u|ch]; injection E1 as <- <-; [constructor|]. constructor; [split; [exact NM|]|constructor]. eapply lazy_unnamed; eauto. }
      destruct H as [(er & _ & _ & ->)|(y & a3 & _ & H & ->)]; [auto|]. apply Forall_app. split; [auto|]. eapply IH; eauto.
Qed.
Lemma params_modest : forall hs c d y ps r asks, tells hs c -> node g d = Some (NDef y ps) -> map_params g rep c d = Good (r, asks) -> Forall (modest c) asks.
Proof.
  intros hs c d y ps r asks T N H. destruct (def_args _ _ _ N) as (args & A & W). unfold map_params in H. apply obind_good in H. destruct H as (fl & _ & H). destruct fl; [|injection H as <- <-; constructor].
  rewrite A in H. cbn [sure obind] in H. unfold def_params in H. rewrite N in H. cbn [sure obind] in H. apply obind_good in H. destruct H as (x & _ & H). eapply loop_modest; [exact T| |exact W|exact H].
  apply Forall_forall. intros p Jp. eapply node_named; [exact N|]. cbn. now apply in_map.
Qed.
End P.
