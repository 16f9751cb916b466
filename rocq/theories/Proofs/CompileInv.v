(** What is compiled is justified, in every state of the compile loop. *)
From Coq Require Import String List ZArith NArith Bool Arith Lia.
From Verif Require Import Model.Base Model.Value Model.Ast Model.Registry Model.AstGraph Model.TyBuild Model.Compile Spec.AstGraphSpec Spec.TyBuildSpec
  Proofs.RegistryProofs Proofs.AstFlatProofs Proofs.AstExpandProofs Proofs.AstGraphProofs Proofs.TyBuildBase Proofs.TyBuildNodes Proofs.TyBuildProofs Spec.CompileSpec Proofs.CompileProofs.
From Verif Require Model.TyGraph Model.Locals Model.Infer Spec.TyGraphSpec Proofs.TyGraphProofs Proofs.ResolveProofs.
Import ListNotations.

Lemma obind_good : forall A B (r : out A) (f : A -> out B) b, obind r f = Good b -> exists a, r = Good a /\ f a = Good b.
Proof. intros A B [a|e|w|] f b H; try discriminate. eauto. Qed.
Lemma sure_good : forall A (r : res A) a, sure r = Good a -> r = Ok a.
Proof. intros A [x|e|] a H; try discriminate. now injection H as ->. Qed.
Lemma expect_good : forall A (o : option A) a, expect o = Good a -> o = Some a.
Proof. intros A [x|] a H; try discriminate. now injection H as ->. Qed.
Lemma omapM_in : forall A B (f : A -> out B) l r, omapM f l = Good r -> forall b, In b r -> exists a, In a l /\ f a = Good b.
Proof.
  induction l as [|x l IH]; intros r H b I; cbn [omapM] in H; [injection H as <-; destruct I|].
  apply obind_good in H. destruct H as (y & Y & H). apply obind_good in H. destruct H as (ys & Ys & H). injection H as <-.
  destruct I as [<-|I]; [exists x; split; [now left|auto]|]. destruct (IH _ Ys _ I) as (a & Ia & E). exists a. split; [now right|auto].
Qed.
Lemma ofilter_in : forall A (f : A -> out bool) l r, ofilter f l = Good r -> forall a, In a r <-> In a l /\ f a = Good true.
Proof.
  induction l as [|x l IH]; intros r H a; cbn [ofilter] in H; [injection H as <-; cbn; tauto|].
  apply obind_good in H. destruct H as (y & Y & H). apply obind_good in H. destruct H as (ys & Ys & H). injection H as <-. specialize (IH _ Ys a).
  destruct y; cbn [In]; rewrite IH; split; intros Z.
  - destruct Z as [<-|(Z & W)]; auto.
  - destruct Z as ([<-|Z] & W); auto.
  - tauto.
  - destruct Z as ([<-|Z] & W); [congruence|auto].
Qed.

(** ** Implementations *)
Lemma pick_some : forall t es fb cmd, pick_key t es fb = Some cmd ->
  (exists e k, In e es /\ e_rel e = RKeyed (Some k) /\ key_of k = t /\ e_dst e = cmd) \/
  ((forall e k, In e es -> e_rel e = RKeyed (Some k) -> key_of k <> t) /\ ((exists e, In e es /\ e_rel e = RKeyed None /\ e_dst e = cmd) \/ fb = Some cmd)).
Proof.
  induction es as [|e es IH]; intros fb cmd H; cbn [pick_key] in H; [right; split; [intros ? ? []|auto]|].
  assert (G : forall fb', pick_key t es fb' = Some cmd -> (forall k, e_rel e = RKeyed (Some k) -> key_of k <> t) ->
    (fb' = Some cmd -> (e_rel e = RKeyed None /\ e_dst e = cmd) \/ fb = Some cmd) ->
    (exists e0 k, In e0 (e :: es) /\ e_rel e0 = RKeyed (Some k) /\ key_of k = t /\ e_dst e0 = cmd) \/
    ((forall e0 k, In e0 (e :: es) -> e_rel e0 = RKeyed (Some k) -> key_of k <> t) /\ ((exists e0, In e0 (e :: es) /\ e_rel e0 = RKeyed None /\ e_dst e0 = cmd) \/ fb = Some cmd))).
  { intros fb' H' N F. destruct (IH _ _ H') as [(e0 & k & I0 & R)|(Z & W)]; [left; exists e0, k; split; [now right|auto]|].
    right. split; [intros e0 k [<-|I0] R; eauto|]. destruct W as [(e0 & I0 & R)|W]; [left; exists e0; split; [now right|auto]|].
    destruct (F W) as [X|X]; [left; exists e; split; [now left|auto]|now right]. }
  destruct (e_rel e) as [|[k|]|i] eqn:R.
  - apply (G fb); auto; discriminate.
  - destruct (tkey_eqb (key_of k) t) eqn:Q.
    + injection H as <-. left. exists e, k. apply tkey_eqb_eq in Q. split; [now left|auto].
    + apply (G fb); auto. intros k' Z. injection Z as <-. intros W. apply tkey_eqb_eq in W. congruence.
  - apply (G (Some (e_dst e))); auto; [discriminate|]. intros Z. injection Z as ->. now left.
  - apply (G fb); auto; discriminate.
Qed.
Lemma in_edges : forall g n e, In e (edges g n) <-> In e (g_edges g) /\ e_src e = n.
Proof. intros g n e. unfold edges. rewrite filter_In, <- in_rev, Nat.eqb_eq. tauto. Qed.
Lemma impl_chosen : forall g o t cmd, key_impl g o t = Some cmd -> chosen g o t cmd.
Proof.
  intros g o t cmd H. apply pick_some in H. destruct H as [([a b r] & k & I & R & K & D)|(N & [([a b r] & I & R & D)|D])]; try discriminate.
  - apply in_edges in I. destruct I as (I & S). cbn in *. subst. left. exists k. split; [|auto]. now apply keyed_in.
  - apply in_edges in I. destruct I as (I & S). cbn in *. subst. right. split; [now apply keyed_in|]. intros k c Ic. apply keyed_in in Ic.
    apply (N (Edge o c (RKeyed (Some k))) k); [apply in_edges; auto|reflexivity].
Qed.

Section Inv.
Variables (P A Q : Type) (s : defs) (e : expr) (root : tkey) (anon : list tkey) (g : graph) (tg0 : tg_t).
Hypothesis HS : start s e root anon = Ok (g, tg0).
Hypothesis HL : has_literal_types (df_types s).
Variable intr : comp P A Q -> nat -> tkey -> option (reply (tkey * P)).
Variable call_args : comp P A Q -> nat -> tkey -> option ((list A + cerr) * list ask).
Variable map_params : comp P A Q -> nat -> option ((injection Q + cerr) * list ask).
Variable order : Locals.lmap -> Locals.lmap.
Variable shuffle : list nat -> list nat.
Notation comp := (comp P A Q).
Notation cstep := (cstep P A).
Implicit Types c : comp.

(** Every expression has a block. *)
Hypothesis HN : forall x t, node g x = Some (NExpr t) -> children g x <> [].

Lemma made_g : made (df_impls s) g.
Proof.
  pose proof HS as H. unfold start in H. destruct (init s e) as [[g0 cs]| |] eqn:E0; cbn [rbind fst snd] in H; try discriminate.
  destruct (init_tg g0 (full (df_types s)) root) as [t0| |]; cbn [rbind] in H; try discriminate.
  destruct (TyGraph.apply_chgs tkey_eqb t0 _ false) as [t1 [b1|?|]]; try discriminate. injection H as <- _. now apply init_made in E0.
Qed.
(** What is settled at the start. *)
Lemma start_facts : length (TyGraph.nodes tg0) = length (g_nodes g) /\ TyGraphSpec.settled tg0 (0, TyGraph.In_) root /\
  forall o k d, In (Some k, d) (keyed g o) -> TyGraphSpec.settled tg0 (d, TyGraph.In_) (key_of k).
Proof.
  pose proof HS as H. unfold start in H. destruct (init s e) as [[g0 cs]| |] eqn:E0; cbn [rbind fst snd] in H; try discriminate.
  destruct (built _ _ _ _ root E0 HL) as (t0 & E1 & L & _ & _ & N). rewrite E1 in H. cbn [rbind] in H.
  pose proof (TyGraphProofs.apply_chgs_keeps tkey tkey_eqb tkey_eqb_eq (map to_chg cs ++ map (@TyGraph.AnonTy tkey) anon) t0 false) as (K1 & K2 & _).
  destruct (TyGraph.apply_chgs tkey_eqb t0 _ false) as [t1 [b1|?|]]; try discriminate. injection H as <- <-. cbn [fst] in *.
  pose proof (init_made _ _ _ _ E0) as M. split; [congruence|]. split.
  - apply K2. destruct (m_root _ _ M) as (t & R). destruct (N _ _ R) as (i & o & I & _ & SI & _). cbn in SI. subst i. now left.
  - intros o k d J. apply K2. destruct (keyed_cmd _ _ M _ _ _ J) as (_ & x & X & C). destruct (N _ _ X) as (i & o' & I & _ & SI & _).
    destruct (cmd_parent_ok _ _ M _ _ X C) as (o1 & t1' & k1 & _ & _ & _ & _ & U).
    assert (W : exists o2 key, In (key, d) (keyed g0 o2) /\ i = match key with Some t => TyGraph.Known (key_of t) | None => TyGraph.Inferred (full (df_types s)) end) by (destruct x; try contradiction; exact SI).
    destruct W as (o2 & key & J2 & ->). destruct (U _ _ J) as (_ & U1). destruct (U _ _ J2) as (_ & U2). left. rewrite I. rewrite U2, <- U1. reflexivity.
Qed.

(** The graph was reached in steps of the compiler. *)
Definition hist c : Prop := exists xs, Forall (compiler_step g) xs /\ TyGraph.compile_history tkey_eqb (tg0, []) xs = (c_tg c, Ok tt).
Lemma hist_moves : forall c c', hist c -> moves P A Q g c c' -> hist c'.
Proof.
  intros c c' (xs & F & H) (_ & _ & _ & ys & F' & H'). exists (xs ++ ys). split; [now apply Forall_app|]. now rewrite ResolveProofs.compile_app, H.
Qed.
Lemma hist_keeps : forall c, hist c -> length (TyGraph.nodes tg0) = length (TyGraph.nodes (fst (c_tg c))) /\ forall p t, TyGraphSpec.settled tg0 p t -> TyGraphSpec.settled (fst (c_tg c)) p t.
Proof.
  intros c (xs & _ & H). pose proof (TyGraphProofs.compile_keeps tkey tkey_eqb tkey_eqb_eq xs (tg0, [])) as (L & K & _). rewrite H in L, K. auto.
Qed.
Lemma kn_there : forall c n x sd, hist c -> node g n = Some x -> kn c n sd <> None.
Proof.
  intros c n x sd H N. apply TyGraphProofs.kn_at_bound. cbn [fst]. destruct (hist_keeps c H) as (L & _). destruct start_facts as (L0 & _). rewrite <- L, L0.
  apply nth_error_Some. unfold node in N. congruence.
Qed.
Lemma settles_fun : forall c n sd t u, settles c n sd t -> settles c n sd u -> t = u.
Proof. intros c n sd t u [H|H] [K|K]; rewrite H in K; congruence. Qed.

(** Types have flowed. *)
Definition calm c : Prop :=
  (forall a b f t, carries g a b f -> let x := TyGraph.Build_edge a b f in
    (TyGraphSpec.settled (fst (c_tg c)) (fst (TyGraphSpec.feeds x)) t -> TyGraphSpec.settled (fst (c_tg c)) (snd (TyGraphSpec.feeds x)) t) /\
    (f = TyGraph.II -> TyGraphSpec.settled (fst (c_tg c)) (snd (TyGraphSpec.feeds x)) t -> TyGraphSpec.settled (fst (c_tg c)) (fst (TyGraphSpec.feeds x)) t)) /\
  (forall n sd t, ty_at c n sd = Some t -> settles c n sd t).
Lemma calm_same : forall c c', same_kn P A Q c c' -> calm c -> calm c'.
Proof.
  intros c c' E (C1 & C2).
  assert (S : forall p t, TyGraphSpec.settled (fst (c_tg c')) p t <-> TyGraphSpec.settled (fst (c_tg c)) p t).
  { intros [n sd] t. specialize (E n sd). unfold kn in E. unfold TyGraphSpec.settled. rewrite E. reflexivity. }
  split.
  - intros a b f t H x. destruct (C1 a b f t H) as (X & Y). split; [intros Z; apply S, X, S, Z|intros F Z; apply S, (Y F), S, Z].
  - intros n sd t H. apply S, C2. unfold ty_at in *. now rewrite <- E.
Qed.
Lemma resolve_calm : forall c c', hist c -> resolve c = Good c' -> calm c'.
Proof.
  intros c c' (xs & F & H) R. destruct (resolve_moves P A Q g c c' R) as (_ & T). split; [|exact T].
  unfold resolve in R. destruct (TyGraph.exec_c tkey_eqb (c_tg c) (TyGraph.CResolve tkey)) as [st [u|?|]] eqn:E; try discriminate. injection R as <-. cbn [c_tg set_tg].
  apply (start_flows s e root anon g tg0 xs st HS HL F). rewrite ResolveProofs.compile_app, H. cbn [TyGraph.compile_history]. rewrite E. now destruct u.
Qed.
Lemma settles_ty : forall c n sd t, settles c n sd t -> ty_at c n sd = Some t.
Proof. intros c n sd t [H|H]; unfold ty_at, kn; rewrite H; reflexivity. Qed.

(** ** The invariant *)
(** [o] was compiled for the input type [t]. *)
Definition why c (o : nat) (t : tkey) (x : cstep) : Prop :=
  exists cmd, key_impl g o t = Some cmd /\
  match x with
  | Prim _ u p => (exists op f, node g cmd = Some (NIntrinsic op f)) /\ answered intr c cmd t u p
  | Call u args stack => exists y ps body, node g cmd = Some (NDef y ps) /\ children g cmd = [body] /\ supplied call_args map_params c cmd t args /\
      has_stack c body stack /\ settles c body TyGraph.In_ t /\ settles c body TyGraph.Out_ u
  end.
Definition op_ok c (o : nat) (x : cstep) : Prop :=
  (exists t, node g o = Some (NOp t)) /\ exists t, settles c o TyGraph.In_ t /\ settles c o TyGraph.Out_ (s_out x) /\ why c o t x.
(** From block to block. *)
Fixpoint chain c (t : tkey) (os : list nat) (v : tkey) : Prop :=
  match os with
  | [] => t = v
  | o :: os => settles c o TyGraph.In_ t /\ exists u, settles c o TyGraph.Out_ u /\ chain c u os v
  end.
Definition expr_ok c (x : nat) (stack : list cstep) : Prop :=
  (exists t, node g x = Some (NExpr t)) /\
  exists t v, settles c x TyGraph.In_ t /\ settles c x TyGraph.Out_ v /\ chain c t (children g x) v /\ Forall2 (has_step c) (children g x) stack.
Definition inv c : Prop := hist c /\ (forall o x, has_step c o x -> op_ok c o x) /\
  (forall x stack, has_stack c x stack -> expr_ok c x stack) /\ mapped map_params c.
Lemma calm_ease : forall c, calm c -> at_ease c.
Proof.
  intros c (_ & C) n sd t E. specialize (C n sd t). unfold ty_at in C. rewrite E in C. specialize (C eq_refl). unfold settles, TyGraphSpec.settled in C.
  unfold kn in E. rewrite E in C. destruct C; discriminate.
Qed.
Lemma mapped_grows : forall c c', grows c c' -> c_params c' = c_params c -> mapped map_params c -> mapped map_params c'.
Proof. intros c c' G E M d ps L. rewrite E in L. destruct (M _ _ L) as (c0 & asks & G0 & R). exists c0, asks. split; [eapply grows_trans; eauto|auto]. Qed.

Lemma why_grows : forall c c' o t x, grows c c' -> why c o t x -> why c' o t x.
Proof.
  intros c c' o t x G (cmd & K & H). exists cmd. split; [auto|]. destruct x as [u p|u args stack].
  - destruct H as (N & c0 & r & G0 & R). split; [auto|]. exists c0, r. split; [eapply grows_trans; eauto|auto].
  - destruct H as (y & ps & body & N & C & (c0 & asks & G0 & R) & S & I & O). exists y, ps, body. split; [auto|]. split; [auto|]. destruct G as (G1 & G2 & G3) eqn:GG.
    split; [exists c0, asks; split; [eapply grows_trans; eauto; exact (conj G1 (conj G2 G3))|auto]|]. split; [now apply G3|]. split; now apply G1.
Qed.
Lemma op_ok_grows : forall c c' o x, grows c c' -> op_ok c o x -> op_ok c' o x.
Proof.
  intros c c' o x G (N & t & I & O & W). split; [auto|]. exists t. pose proof (proj1 G) as S. split; [auto|]. split; [auto|]. eapply why_grows; eauto.
Qed.
Lemma chain_grows : forall c c' os t v, grows c c' -> chain c t os v -> chain c' t os v.
Proof.
  intros c c' os. induction os as [|o os IH]; intros t v G H; cbn in *; [auto|]. destruct H as (I & u & O & H). pose proof (proj1 G) as S. split; [auto|]. exists u. split; [auto|]. now apply IH.
Qed.
Lemma expr_ok_grows : forall c c' x stack, grows c c' -> expr_ok c x stack -> expr_ok c' x stack.
Proof.
  intros c c' x stack G (N & t & v & I & O & C & F). split; [auto|]. exists t, v. pose proof (proj1 G) as S. split; [auto|]. split; [auto|]. split; [eapply chain_grows; eauto|].
  pose proof (proj1 (proj2 G)) as S2. clear - S2 F. induction F; constructor; auto.
Qed.
Lemma inv_moves : forall c c', moves P A Q g c c' -> inv c -> inv c'.
Proof.
  intros c c' M (H & O & X & MP). pose proof (moves_grows P A Q g c c' M) as G. split; [eapply hist_moves; eauto|]. destruct M as (MO & MX & MR & _).
  split; [|split; [|eapply mapped_grows; eauto]].
  - intros o x S. unfold has_step in S. rewrite MO in S. eapply op_ok_grows; eauto.
  - intros x st S. unfold has_stack in S. rewrite MX in S. eapply expr_ok_grows; eauto.
Qed.

(** ** Phases *)
Lemma ops_of_expr : forall x t, node g x = Some (NExpr t) -> rev (op_neighbors g x) = children g x.
Proof. intros x t N. rewrite (op_neighbors_eq _ _ made_g _ _ N). apply rev_involutive. Qed.
Lemma all_some_F2 : forall (f : nat -> option cstep) l r, all_some (map f l) = Some r -> Forall2 (fun o x => f o = Some x) l r.
Proof.
  intros f. induction l as [|o l IH]; intros r H; cbn in H; [injection H as <-; constructor|]. destruct (f o) as [x|] eqn:E; [|discriminate].
  destruct (all_some (map f l)) as [xs|] eqn:R; [|discriminate]. injection H as <-. constructor; auto.
Qed.
Lemma in_indices : forall p n, In n (TyBuild.indices g p) <-> exists x, node g n = Some x /\ p x = true.
Proof.
  intros p n. unfold TyBuild.indices. rewrite filter_In, in_seq. split.
  - intros (_ & H). destruct (node g n) as [x|]; [eauto|discriminate].
  - intros (x & N & H). rewrite N. split; [|auto]. apply nth_error_Some_lt in N || (unfold node in N; assert (n < length (g_nodes g)) by (apply nth_error_Some; congruence); lia).
Qed.

(** Blocks that have steps, in a row. *)
Lemma chain_flows : forall c l pre x t0 t v, hist c -> calm c -> (forall o y, has_step c o y -> op_ok c o y) ->
  node g x = Some (NExpr t0) -> children g x = pre ++ l -> l <> [] ->
  settles c (hd 0 l) TyGraph.In_ t -> settles c x TyGraph.Out_ v -> (forall o, In o l -> exists y, has_step c o y) -> chain c t l v.
Proof.
  intros c l. induction l as [|o l IH]; intros pre x t0 t v H C OK N E NE I O S; [congruence|]. cbn [hd] in I.
  destruct (S o (or_introl eq_refl)) as (y & Y). destruct (OK o y Y) as (_ & t' & _ & Oo & _). cbn [chain]. split; [auto|]. exists (s_out y). split; [auto|].
  destruct C as (C1 & C2) eqn:CC. destruct l as [|o2 l].
  - cbn. destruct (C1 o x TyGraph.OO (s_out y) ltac:(eapply c_last; eauto)) as (F & _). cbn in F. eapply settles_fun; [exact (F Oo)|exact O].
  - apply (IH (pre ++ [o]) x t0); auto.
    + rewrite E, <- app_assoc. reflexivity.
    + discriminate.
    + cbn [hd]. assert (X : carries g o o2 TyGraph.OI).
      { apply c_pipe with (e := x) (t := t0) (i := length pre); [auto| |].
        - rewrite E, nth_error_app2, Nat.sub_diag by lia. reflexivity.
        - rewrite E, nth_error_app2 by lia. now replace (Datatypes.S (length pre) - length pre) with 1 by lia. }
      destruct (C1 _ _ _ (s_out y) X) as (F & _). exact (F Oo).
    + intros o' I'. apply S. now right.
Qed.

Lemma populate_true : forall es c c' b, populate_loop g c es true = (c', b) -> b = true.
Proof. induction es as [|x es IH]; intros c c' b H; cbn in H; [now injection H as _ <-|]. destruct (stack_of g c x); now apply IH in H. Qed.
Lemma populate_loop_ok : forall es c chgd c' b, calm c -> inv c -> populate_loop g c es chgd = (c', b) ->
  (forall x, In x es -> (exists t, node g x = Some (NExpr t)) /\ has x (c_exprs c) = false /\ has_ty_at c x TyGraph.In_ = true /\ has_ty_at c x TyGraph.Out_ = true) -> NoDup es ->
  inv c' /\ grows c c' /\ calm c' /\ same_kn P A Q c c' /\ (b = false -> c' = c).
Proof.
  induction es as [|x es IH]; intros c chgd c' b C I H X ND; cbn [populate_loop] in H.
  - injection H as <- <-. split; [auto|]. split; [apply grows_refl|]. split; [auto|]. split; [apply same_refl|auto].
  - apply NoDup_cons_iff in ND. destruct ND as (NI & ND). destruct (stack_of g c x) as [stack|] eqn:E.
    2:{ apply IH in H; auto. intros y Iy. apply X. now right. }
    destruct (X x (or_introl eq_refl)) as ((t0 & N) & NH & TI & TO). unfold stack_of in E. rewrite (ops_of_expr _ _ N) in E. apply all_some_F2 in E.
    set (c1 := set_exprs c (ainsert Nat.eqb x stack (c_exprs c))) in *.
    assert (G : grows c c1).
    { split; [auto|]. split; [auto|]. intros y st S. unfold has_stack, c1. cbn. rewrite nins. destruct (Nat.eqb_spec x y) as [->|]; [|exact S].
      unfold has in NH. unfold has_stack in S. rewrite S in NH. discriminate. }
    assert (C' : calm c1) by exact C.
    assert (I' : inv c1).
    { destruct I as (Hh & OK & XK & MP). split; [exact Hh|]. split; [intros o y S; eapply op_ok_grows; [exact G|]; now apply OK|].
      split; [|eapply mapped_grows; [exact G|reflexivity|exact MP]].
      intros y st S. unfold has_stack, c1 in S. cbn in S. rewrite nins in S. destruct (Nat.eqb_spec x y) as [<-|]; [|eapply expr_ok_grows; [exact G|]; now apply XK].
      injection S as <-. eapply expr_ok_grows; [exact G|]. split; [eauto|].
      assert (Z : forall sd, has_ty_at c x sd = true -> exists t, settles c x sd t).
      { intros sd Z. unfold has_ty_at in Z. pose proof (proj2 C x sd) as W. unfold ty_at in W. destruct (kn c x sd) as [k|]; [|discriminate].
        destruct k as [|a|a|[|a [|b' ts]]]; try discriminate; exists a; now apply W. }
      destruct (Z _ TI) as (t & St). destruct (Z _ TO) as (v & Sv). exists t, v. split; [auto|]. split; [auto|]. split; [|exact E].
      pose proof (HN _ _ N) as NE. apply (chain_flows c (children g x) [] x t0 t v); auto.
      - destruct (children g x) as [|o l] eqn:CH; [congruence|]. cbn [hd]. assert (Y : carries g x o TyGraph.II) by (eapply c_first; [exact N|now rewrite CH]).
        destruct (proj1 C _ _ _ t Y) as (F & _). exact (F St).
      - intros o Io. clear - E Io. induction E; [destruct Io|]. destruct Io as [<-|Io]; [eauto|auto]. }
    assert (HB : b = true) by (revert H; apply populate_true).
    apply IH in H; auto.
    + destruct H as (A1 & A2 & A3 & A4 & A5). split; [auto|]. split; [eapply grows_trans; eauto|]. split; [auto|]. split; [exact A4|].
      intros ->. discriminate.
    + intros y Iy. destruct (X y (or_intror Iy)) as (Y1 & Y2 & Y3 & Y4). split; [auto|]. split; [|auto].
      unfold has, c1. cbn. rewrite nins. destruct (Nat.eqb_spec x y) as [->|]; [contradiction|exact Y2].
Qed.
Lemma indices_nodup : forall p, NoDup (TyBuild.indices g p).
Proof. intros p. apply NoDup_filter, seq_NoDup. Qed.
Lemma populate_ok : forall c c' b, calm c -> inv c -> populate g c = (c', b) -> inv c' /\ grows c c' /\ calm c' /\ (b = false -> c' = c).
Proof.
  intros c c' b C I H. unfold populate in H. apply populate_loop_ok in H; auto.
  - destruct H as (A1 & A2 & A3 & _ & A4). auto.
  - intros x J. apply filter_In in J. destruct J as (J & F). apply in_indices in J. destruct J as (y & N & Y). destruct y; try discriminate.
    apply andb_prop in F. destruct F as (F1 & F2). apply andb_prop in F2. destruct F2 as (F2 & F3). apply negb_true_iff in F1. eauto.
  - apply NoDup_filter, indices_nodup.
Qed.

Lemma var_chgs_ok : forall c n cs, var_chgs g c n = Good cs -> Forall (change_ok g) cs.
Proof.
  intros c n cs H. unfold var_chgs in H. destruct (node g n) as [x|] eqn:N; [|injection H as <-; constructor].
  assert (V : forall t, x = NVar t -> at_node g n variable) by (intros t ->; exists (NVar t); split; [auto|exact I]).
  destruct x as [| | | | | | |t|]; try (injection H as <-; constructor).
  destruct (multiple_at c n TyGraph.Out_); [|injection H as <-; constructor]. apply obind_good in H. destruct H as (r & _ & H). injection H as <-.
  specialize (V t eq_refl). destruct (snd r) as [[ty k|to]|]; repeat constructor; cbn; auto.
Qed.
Lemma assign_moves : forall c c' b, assign_variable_types g order c = Good (c', b) -> moves P A Q g c c' /\ (b = false -> same_kn P A Q c c').
Proof.
  intros c c' b H. unfold assign_variable_types in H. apply obind_good in H. destruct H as (l & L & H).
  apply apply_all_moves with (g := g) in H.
  - destruct H as (M & _ & _ & _ & B). split; [auto|]. intros Z. now apply B in Z.
  - apply Forall_forall. intros x J. apply in_concat in J. destruct J as (cs & Jc & J). destruct (omapM_in _ _ _ _ _ L _ Jc) as (n & _ & E).
    apply var_chgs_ok in E. rewrite Forall_forall in E. auto.
Qed.

Lemma locals_loop_ok : forall ds c cs b c' cs' b', locals_loop g map_params order c ds cs b = Good (c', cs', b') -> Forall (change_ok g) cs ->
  c_tg c' = c_tg c /\ c_ops c' = c_ops c /\ c_exprs c' = c_exprs c /\ c_depth c' = c_depth c /\ Forall (change_ok g) cs' /\
  (b' = false -> b = false /\ c_params c' = c_params c) /\ (at_ease c -> mapped map_params c -> mapped map_params c').
Proof.
  induction ds as [|d ds IH]; intros c cs b c' cs' b' H F; cbn [locals_loop] in H; [injection H as <- <- <-; auto 10|].
  apply obind_good in H. destruct H as ([r asks] & MP & H). apply expect_good in MP. assert (F' : Forall (change_ok g) (cs ++ map asked asks)) by (apply Forall_app; split; [auto|apply asked_ok]).
  destruct r as [[ps| |]|er]; try discriminate; try (now apply IH in H).
  apply obind_good in H. destruct H as (x & _ & H). apply obind_good in H. destruct H as (lg & _ & H). apply IH in H; [|exact F'].
  destruct H as (H1 & H2 & H3 & H4 & H5 & H6 & H7). split; [exact H1|]. split; [exact H2|]. split; [exact H3|]. split; [exact H4|]. split; [exact H5|]. split; [intros Z; destruct (H6 Z); discriminate|].
  intros AE M. apply H7; [exact AE|]. intros d' ps' L. cbn in L. rewrite nins in L. destruct (Nat.eqb_spec d d') as [<-|].
  - injection L as <-. exists c, asks. split; [|auto]. split; [auto|split; auto].
  - destruct (M _ _ L) as (c0 & as0 & G0 & R). exists c0, as0. split; [|auto]. eapply grows_trans; [exact G0|]. split; [auto|split; auto].
Qed.
Lemma locals_inv : forall c c' b, inv c -> at_ease c -> insert_available_def_locals g map_params order c = Good (c', b) -> inv c' /\ grows c c'.
Proof.
  intros c c' b I AE H. unfold insert_available_def_locals in H. apply obind_good in H. destruct H as ([[c1 cs] b1] & L & H). apply obind_good in H.
  destruct H as ([c2 b2] & H & E). cbn [fst snd] in *. injection E as <- <-. apply locals_loop_ok in L; [|constructor]. destruct L as (T & O & X & _ & F & _ & M).
  destruct I as (Hh & OK & XK & MP). specialize (M AE MP).
  assert (G : grows c c1) by (unfold grows, settles, has_step, has_stack; rewrite T, O, X; auto).
  assert (I1 : inv c1).
  { split; [destruct Hh as (xs & Fx & Hx); exists xs; rewrite T; auto|]. split; [|split; [|exact M]].
    - intros o x S. unfold has_step in S. rewrite O in S. eapply op_ok_grows; eauto.
    - intros x st S. unfold has_stack in S. rewrite X in S. eapply expr_ok_grows; eauto. }
  apply apply_all_moves with (g := g) in H; [|exact F]. destruct H as (Mv & _). split; [eapply inv_moves; eauto|]. eapply grows_trans; [exact G|eapply moves_grows; eauto].
Qed.
Lemma locals_moves : forall c c' b, insert_available_def_locals g map_params order c = Good (c', b) -> b = false -> moves P A Q g c c' /\ same_kn P A Q c c'.
Proof.
  intros c c' b H Z. unfold insert_available_def_locals in H. apply obind_good in H. destruct H as ([[c1 cs] b1] & L & H). apply obind_good in H.
  destruct H as ([c2 b2] & H & E). cbn [fst snd] in *. injection E as <- <-. apply locals_loop_ok in L; [|constructor]. destruct L as (T & O & X & _ & F & R & _).
  apply orb_false_iff in Z. destruct Z as (Z1 & Z). destruct (R Z1) as (_ & R').
  apply apply_all_moves with (g := g) in H; [|exact F]. destruct H as (M & _ & _ & _ & B). split; [eapply moves_trans; [apply moves_same|exact M]; auto|].
  apply B in Z. destruct Z as (_ & Z). intros n sd. rewrite Z. unfold kn. now rewrite T.
Qed.

Lemma known_path_def : forall c d, In d (known_paths g c) -> exists o k t ps, In (k, d) (keyed g o) /\ node g d = Some (NDef t ps).
Proof.
  intros c d J. unfold known_paths in J. apply in_flat_map in J. destruct J as (o & _ & J).
  assert (D : forall d', at_is g is_def d' = true -> exists t ps, node g d' = Some (NDef t ps)).
  { intros d' Z. unfold at_is in Z. destruct (node g d') as [[]|]; try discriminate. eauto. }
  destruct (predict_path g c o) as [d'|] eqn:E; [|destruct J]. destruct J as [->|[]]. unfold predict_path in E.
  destruct (ty_at c o TyGraph.In_) as [t|].
  - destruct (key_impl g o t) as [d'|] eqn:K; [|discriminate]. destruct (at_is g is_def d') eqn:Z; [|discriminate]. injection E as ->.
    destruct (D _ Z) as (t1 & ps & N). apply impl_chosen in K. destruct K as [(k & K & _)|(K & _)]; eauto 8.
  - destruct (cmds g o) as [|d' rest] eqn:K; [discriminate|]. destruct (at_is g is_def d') eqn:Z; [|discriminate]. destruct rest; [|discriminate]. injection E as ->.
    destruct (D _ Z) as (t1 & ps & N). assert (J : In d (cmds g o)) by (rewrite K; now left). rewrite cmds_eq, <- in_rev in J. apply in_map_iff in J.
    destruct J as ([k d'] & <- & J). eauto 8.
Qed.
Lemma link_loop_ok : forall ds c b c' b', link_loop g c ds b = Good (c', b') -> (forall d, In d ds -> exists o k t ps, In (k, d) (keyed g o) /\ node g d = Some (NDef t ps)) ->
  moves P A Q g c c' /\ (b' = false -> b = false /\ same_kn P A Q c c').
Proof.
  induction ds as [|d ds IH]; intros c b c' b' H D; cbn [link_loop] in H.
  - injection H as <- <-. split; [apply moves_refl|]. intros ->. split; [auto|apply same_refl].
  - apply obind_good in H. destruct H as (r & R & H). apply sure_good in R. apply IH in H; [|intros d' J; apply D; now right]. destruct H as (M & B).
    unfold link_defs in R. destruct (link_list g [d]) as [[o args]| |] eqn:L; cbn [rbind] in R; try discriminate. injection R as <-. cbn [fst snd] in *.
    assert (OP : at_node g o an_op).
    { unfold link_list in L. destruct (cmd_parent g d) as [o'| |] eqn:CP; cbn [rbind] in L; try discriminate.
      destruct (get_args g d) as [ag| |]; cbn [rbind] in L; try discriminate. destruct (rmapM (def_params g) [d]) as [pa| |]; cbn [rbind] in L; try discriminate. cbv zeta in L. match type of L with (rbind ?r _ = _) => destruct r; cbn [rbind] in L; try discriminate end. injection L as <- _.
      destruct (D d (or_introl eq_refl)) as (o1 & k & t & ps & K & N). destruct (cmd_parent_ok _ _ made_g d (NDef t ps) N Logic.I) as (o2 & t2 & k2 & N2 & CP2 & _).
      rewrite CP in CP2. injection CP2 as <-. exists (NOp t2). split; [auto|exact Logic.I]. }
    split.
    + eapply moves_trans; [|exact M]. apply moves_step with (x := TyGraph.CLink tkey o args); [reflexivity|reflexivity|reflexivity|exact OP|]. cbn [TyGraph.exec_c c_tg set_tg]. destruct (TyGraph.link_args (fst (c_tg c)) o args false). reflexivity.
    + intros Z. apply B in Z. destruct Z as (Z & SK). apply orb_false_iff in Z. destruct Z as (-> & Z). split; [auto|]. apply link_false in Z. intros n sd. rewrite SK. unfold kn. change (kat (fst (TyGraph.link_args (fst (c_tg c)) o args false)) (n, sd) = kat (fst (c_tg c)) (n, sd)). now rewrite Z.
Qed.
Lemma link_moves : forall c c' b, link_known_def_path_args g c = Good (c', b) -> moves P A Q g c c' /\ (b = false -> same_kn P A Q c c').
Proof.
  intros c c' b H. unfold link_known_def_path_args in H. apply obind_good in H. destruct H as (ds & F & H). apply link_loop_ok in H.
  - destruct H as (M & B). split; [auto|]. intros Z. now apply B in Z.
  - intros d J. apply (ofilter_in _ _ _ _ F) in J. destruct J as (J & _). eapply known_path_def; eauto.
Qed.

(** ** Blocks *)
Lemma seal_ok : forall (b : bool) n, Forall (change_ok g) (if b then [] else [Lg (Locals.Seal n)]).
Proof. intros [|] n; repeat constructor. Qed.
Lemma body_input : forall c o t cmd y ps body, hist c -> calm c -> settles c o TyGraph.In_ t -> key_impl g o t = Some cmd -> node g cmd = Some (NDef y ps) -> children g cmd = [body] ->
  settles c body TyGraph.In_ t.
Proof.
  intros c o t cmd y ps body H (C & _) S K N E. assert (D : defines g cmd) by (exists y, ps; auto).
  assert (I : settles c cmd TyGraph.In_ t).
  { apply impl_chosen in K. destruct K as [(k & K & <-)|(K & _)].
    - apply (proj2 (hist_keeps c H)). destruct start_facts as (_ & _ & F). eapply F; eauto.
    - destruct (C o cmd TyGraph.II t) as (F & _); [now apply c_call_in|]. exact (F S). }
  destruct (C cmd body TyGraph.II t) as (F & _); [apply c_body_in; [auto|rewrite E; now left]|]. exact (F I).
Qed.
Lemma compile_block_ok : forall c o t r, hist c -> calm c -> mapped map_params c -> settles c o TyGraph.In_ t -> compile_block g intr call_args c o t = Good r ->
  forall x, r_res r = inl x -> why c o t x.
Proof.
  intros c o t r H C MP S B x X. unfold compile_block in B. pose proof (calm_ease c C) as AE. destruct (key_impl g o t) as [cmd|] eqn:K; [|injection B as <-; discriminate].
  destruct (node g cmd) as [[| op f|y ps| | | | | | ]|] eqn:N; try discriminate.
  - apply obind_good in B. destruct B as (r0 & E0 & B). apply expect_good in E0. injection B as <-. cbn in X. destruct (r_res r0) as [[u p]|] eqn:R; [|discriminate]. injection X as <-.
    exists cmd. split; [auto|]. split; [eauto|]. exists c, r0. split; [apply grows_refl|auto].
  - apply obind_good in B. destruct B as (body & D & B). apply sure_good in D. destruct (def_expr_ok _ _ made_g _ _ _ N) as (b' & t' & D' & CH & NB).
    rewrite D in D'. injection D' as <-. destruct (alookup Nat.eqb body (c_exprs c)) as [stack|] eqn:L; [|injection B as <-; discriminate].
    apply obind_good in B. destruct B as ([[args|er] asks] & CA & B); [|injection B as <-; discriminate]. apply expect_good in CA. apply obind_good in B. destruct B as (u & U & B). injection B as <-. cbn in X. injection X as <-.
    apply expect_good in U. exists cmd. split; [auto|]. exists y, ps, body. split; [auto|]. split; [auto|]. split; [exists c, asks; split; [apply grows_refl|auto]|].
    split; [exact L|]. split; [eapply body_input; eauto|]. now apply (proj2 C).
Qed.
Lemma blocks_loop_ok : forall ns c cs dn er c' cs' dn' er', hist c -> calm c -> mapped map_params c ->
  (forall n, In n ns -> has n (c_ops c) = false) -> NoDup ns -> Forall (change_ok g) cs ->
  blocks_loop g intr call_args c ns cs dn er = Good (c', cs', dn', er') ->
  c_tg c' = c_tg c /\ c_exprs c' = c_exprs c /\ c_depth c' = c_depth c /\ c_lg c' = c_lg c /\ c_params c' = c_params c /\ grows c c' /\ Forall (change_ok g) cs' /\ incl cs cs' /\
  (forall o x, has_step c' o x -> has_step c o x \/ (In o ns /\ exists t, settles c o TyGraph.In_ t /\ why c' o t x /\ In (Tg (TyGraph.KnownOutput o (s_out x))) cs')) /\
  (dn' = false -> dn = false /\ c_ops c' = c_ops c) /\ (dn' = false -> er <> None \/ ns <> [] -> er' <> None).
Proof.
  induction ns as [|n ns IH]; intros c cs dn er c' cs' dn' er' H C MP U ND F B; cbn [blocks_loop] in B.
  - injection B as <- <- <- <-. split; [auto|]. split; [auto|]. split; [auto|]. split; [auto|]. split; [auto|]. split; [apply grows_refl|]. split; [auto|]. split; [apply incl_refl|]. split; [auto|]. split; [auto|]. intros _ [Z|Z]; [auto|congruence].
  - apply obind_good in B. destruct B as (t & T & B). apply expect_good in T. apply obind_good in B. destruct B as (r & R & B).
    assert (ST : settles c n TyGraph.In_ t) by now apply (proj2 C). apply NoDup_cons_iff in ND. destruct ND as (NI & ND).
    pose proof (compile_block_ok c n t r H C MP ST R) as W.
    assert (FA : Forall (change_ok g) (cs ++ map asked (r_asks r))) by (apply Forall_app; split; [auto|apply asked_ok]).
    destruct (r_res r) as [x|e0] eqn:X.
    + specialize (W x eq_refl). set (c1 := set_ops c (ainsert Nat.eqb n x (c_ops c))) in *.
      assert (G : grows c c1).
      { split; [auto|]. split; [|auto]. intros o y Y. unfold has_step, c1. cbn. rewrite nins. destruct (Nat.eqb_spec n o) as [->|]; [|exact Y].
        specialize (U o (or_introl eq_refl)). unfold has in U. unfold has_step in Y. rewrite Y in U. discriminate. }
      assert (MP1 : mapped map_params c1) by (eapply mapped_grows; [exact G|reflexivity|exact MP]).
      apply IH in B; auto.
      * destruct B as (B1 & B2 & B3 & B3a & B3b & B4 & B5 & B6 & B7 & B8 & B9). split; [auto|]. split; [auto|]. split; [auto|]. split; [auto|]. split; [auto|]. split; [eapply grows_trans; eauto|]. split; [auto|].
        split; [intros z Z; apply B6, in_or_app; left; apply in_or_app; now left|]. split.
        { intros o y Y. destruct (B7 o y Y) as [Z|(Z & t' & Z1 & Z2 & Z3)].
          - unfold has_step, c1 in Z. cbn in Z. rewrite nins in Z. destruct (Nat.eqb_spec n o) as [<-|]; [|now left]. injection Z as <-. right. split; [now left|].
            exists t. split; [auto|]. split; [eapply why_grows; [|exact W]; eapply grows_trans; eauto|]. apply B6. apply in_or_app. right. now left.
          - right. split; [now right|]. exists t'. auto. }
        split; [intros Z; destruct (B8 Z); discriminate|]. intros Z. destruct (B8 Z); discriminate.
      * intros m J. unfold has, c1. cbn. rewrite nins. destruct (Nat.eqb_spec n m) as [->|]; [contradiction|]. apply U. now right.
      * apply Forall_app. split; [auto|]. apply Forall_app. split; [repeat constructor|apply seal_ok].
    + assert (MP1 : mapped map_params (if r_infer r then set_infer c (c_infer c ++ [n]) else c)).
      { destruct (r_infer r); [|exact MP]. eapply mapped_grows; [|reflexivity|exact MP]. split; [auto|split; auto]. }
      apply IH in B; auto.
      * destruct B as (B1 & B2 & B3 & B3a & B3b & B4 & B5 & B6 & B7 & B8 & B9).
        assert (E1 : forall (b : bool) (l : list nat), c_tg (if b then set_infer c l else c) = c_tg c /\ c_exprs (if b then set_infer c l else c) = c_exprs c /\
          c_depth (if b then set_infer c l else c) = c_depth c /\ c_ops (if b then set_infer c l else c) = c_ops c /\ c_lg (if b then set_infer c l else c) = c_lg c /\ c_params (if b then set_infer c l else c) = c_params c) by (intros [|] l; auto 10).
        destruct (E1 (r_infer r) (c_infer c ++ [n])) as (E2 & E3 & E4 & E5 & E6 & E7).
        split; [congruence|]. split; [congruence|]. split; [congruence|]. split; [congruence|]. split; [congruence|]. split.
        { eapply grows_trans; [|exact B4]. unfold grows, settles, has_step, has_stack. rewrite E2, E3, E5. auto. }
        split; [auto|]. split; [intros z Z; apply B6; apply in_or_app; left; apply in_or_app; now left|]. split.
        { intros o y Y. destruct (B7 o y Y) as [Z|(Z & t' & Z1 & Z2 & Z3)]; [left; unfold has_step in *; now rewrite E5 in Z|].
          right. split; [now right|]. exists t'. unfold settles in *. rewrite E2 in Z1. auto. }
        split; [intros Z; destruct (B8 Z); split; congruence|]. intros Z _. apply B9; [auto|]. left. discriminate.
      * destruct (r_infer r); auto.
      * destruct (r_infer r); auto.
      * intros m J. destruct (r_infer r); apply U; now right.
      * apply Forall_app. split; [auto|apply seal_ok].
Qed.
Lemma ready_in : forall c n, In n (ready g c) -> (exists t, node g n = Some (NOp t)) /\ has n (c_ops c) = false /\ has_ty_at c n TyGraph.In_ = true.
Proof.
  intros c n J. apply filter_In in J. destruct J as (J & F). apply in_indices in J. destruct J as (y & N & Y). destruct y; try discriminate.
  apply andb_prop in F. destruct F as (F1 & F2). apply negb_true_iff in F1. eauto.
Qed.
Lemma compile_blocks_ok : forall c c' r, inv c -> calm c -> compile_blocks g intr call_args order c = Good (c', r) -> inv c' /\ grows c c' /\ c_depth c' = c_depth c.
Proof.
  intros c c' r (H & OK & XK & MP) C B. unfold compile_blocks in B. apply obind_good in B. destruct B as ([[[c1 cs] dn] er] & B & Z).
  apply obind_good in Z. destruct Z as ([c2 b] & AP & Z). cbn [fst snd] in Z.
  assert (c' = c2) as -> by (destruct (dn || b); [now injection Z as <-|]; destruct er; [now injection Z as <-|discriminate]). clear Z.
  apply blocks_loop_ok in B; auto; [|intros n J; now apply ready_in in J|apply NoDup_filter, indices_nodup].
  destruct B as (B1 & B2 & B3 & _ & BP & B4 & B5 & _ & B7 & _). pose proof AP as AP0. apply apply_all_moves with (g := g) in AP; [|exact B5]. destruct AP as (M & D & _).
  assert (H1 : hist c1) by (destruct H as (xs & F & H); exists xs; rewrite B1; auto).
  pose proof (moves_grows P A Q g _ _ M) as G2. pose proof (grows_trans P A Q _ _ _ B4 G2) as G. split; [|split; [auto|congruence]].
  split; [eapply hist_moves; eauto|]. destruct M as (MO & MX & MR & M). split; [|split; [|eapply mapped_grows; [exact G|congruence|exact MP]]].
  - intros o x S. assert (S1 : has_step c1 o x) by (unfold has_step in *; now rewrite <- MO).
    destruct (B7 o x S1) as [S0|(J & t & S0 & W & K)]; [eapply op_ok_grows; [exact G|]; auto|].
    destruct (ready_in _ _ J) as ((t0 & N) & _). split; [eauto|]. exists t. split; [now apply (proj1 G)|]. split; [|exact (why_grows _ _ _ _ _ G2 W)].
    refine (apply_all_claims P A Q g order cs c1 false c2 b o (s_out x) B5 AP0 K _). eapply kn_there; eauto.
  - intros x st S. eapply expr_ok_grows; [exact G|]. apply XK. unfold has_stack in *. congruence.
Qed.

(** ** Guesses *)
Lemma inputs_block_moves : forall c c' a, infer_inputs_block g intr call_args order c = Good (c', a) -> moves P A Q g c c' /\ c_depth c' = c_depth c.
Proof.
  intros c c' a H. unfold infer_inputs_block in H. apply obind_good in H. destruct H as (ns & _ & H). apply obind_good in H. destruct H as (l & L & H).
  unfold yes_no in H. apply obind_good in H. destruct H as ([c1 b] & H & E). injection E as <- _. cbn [fst]. apply apply_all_moves with (g := g) in H.
  - destruct H as (M & D & _). auto.
  - apply Forall_forall. intros x J. apply in_concat in J. destruct J as (cs & Jc & J). destruct (omapM_in _ _ _ _ _ L _ Jc) as (n & _ & E).
    unfold failing_types in E. apply obind_good in E. destruct E as (ts & _ & E). apply obind_good in E. destruct E as (rs & _ & E). injection E as <-.
    apply in_map_iff in J. destruct J as (y & <- & _). exact Logic.I.
Qed.
Lemma trials_from : forall (f : tkey -> Infer.outcome comp) types v rm i c', Infer.trials tkey_eqb f types v rm i = Infer.Chosen c' ->
  i = Some c' \/ exists t, In t types /\ f t = Infer.Compiles c'.
Proof.
  intros f. induction types as [|t types IH]; intros v rm i c' H; cbn in H.
  - destruct i as [c0|]; [injection H as ->; auto|]. destruct rm; discriminate.
  - destruct (f t) eqn:E; try discriminate.
    + apply IH in H. destruct H as [H|(u & J & H)]; [auto|]. right. exists u. split; [now right|auto].
    + destruct i; [discriminate|]. apply IH in H. destruct H as [H|(u & J & H)]; [|right; exists u; split; [now right|auto]]. injection H as ->. right. exists t. split; [now left|auto].
    + apply IH in H. destruct H as [H|(u & J & H)]; [auto|]. right. exists u. split; [now right|auto].
Qed.
Lemma loop_from : forall (vd : nat -> Infer.verdict tkey comp) ns er rm c', Infer.round_loop vd ns er rm = Infer.Adopted c' -> exists n, In n ns /\ vd n = Infer.Chosen c'.
Proof.
  intros vd. induction ns as [|n ns IH]; intros er rm c' H; cbn in H; [destruct rm; [destruct er as [[? ?]|]|]; discriminate|].
  destruct (vd n) eqn:E; try discriminate; try (apply IH in H; destruct H as (m & J & H); exists m; split; [now right|auto]).
  injection H as ->. exists n. split; [now left|auto].
Qed.
Definition good_rec (rec : comp -> nat -> out comp) : Prop := forall c b c', inv c -> rec c b = Good c' -> inv c' /\ grows c c'.
Lemma guess_ok : forall rec c sd brk ns c' a, good_rec rec -> inv c -> guess order rec c sd brk ns = Good (c', a) -> inv c' /\ grows c c'.
Proof.
  intros rec c sd brk ns c' a R I H. unfold guess in H. destruct (Infer.round_loop _ ns None []) as [c1|rm|n v|n|] eqn:E.
  - injection H as <- _. apply loop_from in E. destruct E as (n & _ & E). unfold Infer.test_compile_types in E. apply trials_from in E.
    destruct E as [E|(t & _ & E)]; [discriminate|]. unfold trial in E. destruct (sure (brk n)) as [b|e0|w|]; try discriminate.
    destruct (apply_all order _ _ false) as [[c2 b2]|e0|w|] eqn:AP; try discriminate. cbn [fst outcome_of] in E. destruct (rec c2 b) as [c3|e0|w|] eqn:RC; try discriminate.
    2: destruct (er_deep e0); discriminate. injection E as ->.
    apply apply_all_moves with (g := g) in AP; [|repeat constructor; destruct sd; exact Logic.I]. destruct AP as (M & _).
    assert (M0 : moves P A Q g c c2) by (eapply moves_trans; [apply moves_same|exact M]; auto).
    apply R in RC; [|eapply inv_moves; eauto]. destruct RC as (I3 & G3). split; [auto|]. eapply grows_trans; [eapply moves_grows; eauto|auto].
  - unfold yes_no in H. apply obind_good in H. destruct H as ([c1 b] & H & E1). injection E1 as <- _. cbn [fst].
    apply apply_all_moves with (g := g) in H.
    + destruct H as (M & _). split; [eapply inv_moves; eauto|eapply moves_grows; eauto].
    + apply Forall_forall. intros x J. apply in_map_iff in J. destruct J as (y & <- & _). destruct sd; exact Logic.I.
  - injection H as <- _. split; [auto|apply grows_refl].
  - destruct (find _ _) as [[|[?|?|?|]]|]; try discriminate. injection H as <- _. split; [auto|apply grows_refl].
  - injection H as <- _. split; [auto|apply grows_refl].
Qed.
Lemma inv_infer : forall c l, inv c -> inv (set_infer c l).
Proof. intros c l I. eapply inv_moves; [|exact I]. now apply moves_same. Qed.
Lemma outputs_ok : forall rec c c' a, good_rec rec -> inv c -> infer_outputs g order rec c = Good (c', a) -> inv c' /\ grows c c'.
Proof.
  intros rec c c' a R I H. unfold infer_outputs in H. destruct (c_depth c <? 5); [|injection H as <- _; split; [auto|apply grows_refl]].
  apply guess_ok in H; [exact H|auto|now apply inv_infer].
Qed.
Lemma inputs_expr_ok : forall rec c c' a, good_rec rec -> inv c -> infer_inputs_expr g order shuffle rec c = Good (c', a) -> inv c' /\ grows c c'.
Proof.
  intros rec c c' a R I H. unfold infer_inputs_expr in H. destruct (c_depth c <? 5); [|injection H as <- _; split; [auto|apply grows_refl]].
  apply obind_good in H. destruct H as (ns & _ & H). apply guess_ok in H; auto.
Qed.
Lemma guesses_ok : forall rec c er c', good_rec rec -> inv c -> guesses g intr call_args order shuffle rec c er = Good c' -> inv c' /\ grows c c'.
Proof.
  intros rec c er c' R I H. unfold guesses in H. apply obind_good in H. destruct H as ([c1 a1] & H1 & H). apply inputs_block_moves in H1. destruct H1 as (M1 & _).
  assert (I1 : inv c1) by (eapply inv_moves; eauto). pose proof (moves_grows P A Q g _ _ M1) as G1.
  assert (K : forall er1, (let! r := infer_outputs g order rec c1 in
      match r with
      | (c, Yes) => Good c
      | (c, a) => let err := match a with Oops e => e | _ => er1 end in
        if match a with Oops e => er_hard e | _ => false end then Bad err else
        let! r := infer_inputs_expr g order shuffle rec c in
        match r with (c, Yes) => Good c | (c, Oops e) => Bad e | (c, No) => Bad err end
      end) = Good c' -> inv c' /\ grows c c').
  { intros er1 Z. apply obind_good in Z. destruct Z as ([c2 a2] & H2 & Z). apply outputs_ok in H2; auto. destruct H2 as (I2 & G2).
    assert (K2 : forall er2, (let! r := infer_inputs_expr g order shuffle rec c2 in
        match r with (c, Yes) => Good c | (c, Oops e) => Bad e | (c, No) => Bad er2 end) = Good c' -> inv c' /\ grows c c').
    { intros er2 W. apply obind_good in W. destruct W as ([c3 a3] & H3 & W). apply inputs_expr_ok in H3; auto. destruct H3 as (I3 & G3). destruct a3; try discriminate.
      injection W as <-. split; [auto|]. eapply grows_trans; [exact G1|]. eapply grows_trans; eauto. }
    destruct a2 as [| |e2]; [injection Z as <-; split; [auto|eapply grows_trans; eauto]|exact (K2 _ Z)|]. cbv zeta in Z. destruct (er_hard e2); [discriminate|]. exact (K2 _ Z). }
  destruct a1 as [| |e1]; [injection H as <-; auto|exact (K _ H)|exact (K _ H)].
Qed.
Lemma round_ok : forall rec c c', good_rec rec -> inv c -> round g intr call_args map_params order shuffle rec c = Good c' -> inv c' /\ grows c c'.
Proof.
  intros rec c c' R I H. unfold round in H. apply obind_good in H. destruct H as (c1 & H1 & H).
  assert (C1 : calm c1) by (eapply resolve_calm; [exact (proj1 I)|exact H1]). apply (resolve_moves P A Q g) in H1. destruct H1 as (M1 & _).
  assert (I1 : inv c1) by (eapply inv_moves; eauto). pose proof (moves_grows P A Q g _ _ M1) as G1.
  destruct (populate g c1) as [c2 b2] eqn:H2. apply populate_ok in H2; auto. destruct H2 as (I2 & G2 & C2 & Z2).
  destruct b2; [injection H as <-; split; [auto|eapply grows_trans; eauto]|]. specialize (Z2 eq_refl). subst c2.
  apply obind_good in H. destruct H as ([c3 b3] & H3 & H). apply assign_moves in H3. destruct H3 as (M3 & S3). cbn [fst snd] in H.
  assert (I3 : inv c3) by (eapply inv_moves; eauto). assert (G3 : grows c c3) by (eapply grows_trans; [exact G1|eapply moves_grows; eauto]).
  destruct b3; [injection H as <-; auto|]. assert (C3 : calm c3) by (eapply calm_same; eauto).
  apply obind_good in H. destruct H as ([c4 b4] & H4 & H). pose proof (locals_moves _ _ _ H4) as S4. apply locals_inv in H4; [|auto|now apply calm_ease]. destruct H4 as (I4 & G4'). cbn [fst snd] in H.
  assert (G4 : grows c c4) by (eapply grows_trans; eauto).
  destruct b4; [injection H as <-; auto|]. destruct (S4 eq_refl) as (_ & SK4). assert (C4 : calm c4) by (eapply calm_same; eauto).
  apply obind_good in H. destruct H as ([c5 b5] & H5 & H). apply link_moves in H5. destruct H5 as (M5 & S5). cbn [fst snd] in H.
  assert (I5 : inv c5) by (eapply inv_moves; eauto). assert (G5 : grows c c5) by (eapply grows_trans; [exact G4|eapply moves_grows; eauto]).
  destruct b5; [injection H as <-; auto|]. assert (C5 : calm c5) by (eapply calm_same; eauto).
  apply obind_good in H. destruct H as ([c6 r6] & H6 & H). apply compile_blocks_ok in H6; auto. destruct H6 as (I6 & G6 & _). cbn [fst snd] in H.
  assert (G6' : grows c c6) by (eapply grows_trans; eauto). destruct r6 as [e6|]; [|injection H as <-; auto].
  destruct (er_hard e6); [discriminate|]. apply guesses_ok in H; auto. destruct H as (I7 & G7). split; [auto|]. eapply grows_trans; eauto.
Qed.
Lemma compile_ok : forall fuel c b c', inv c -> compile g intr call_args map_params order shuffle fuel c b = Good c' -> inv c' /\ grows c c'.
Proof.
  induction fuel as [|fuel IH]; intros c b c' I H; cbn [compile] in H; [discriminate|].
  destruct (_ || _); [injection H as <-; split; [auto|apply grows_refl]|]. apply obind_good in H. destruct H as (c1 & H1 & H).
  apply round_ok in H1; [|exact IH|exact I]. destruct H1 as (I1 & G1). apply IH in H; auto. destruct H as (I2 & G2). split; [auto|eapply grows_trans; eauto].
Qed.
End Inv.
