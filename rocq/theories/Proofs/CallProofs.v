(** Parameters are set to what is written. *)
From Coq Require Import String List NArith Bool Arith Lia.
From Verif Require Import Model.Base Model.Value Model.Ast Model.Registry Model.AstGraph Model.TyBuild Model.Compile Model.ArgApi Spec.AstGraphSpec Spec.TyBuildSpec Spec.CompileSpec Spec.ArgSpec
  Proofs.RegistryProofs Proofs.TyBuildBase Proofs.TyBuildNodes Proofs.CompileProofs Proofs.CompileInv Proofs.CompileTop Proofs.ArgProofs.
From Verif Require Model.TyGraph Model.Locals Proofs.AstExpandProofs.
Import ListNotations.

Lemma abind_good : forall X Y (m : act X) (f : X -> act Y) y asks, abind m f = Good (inl y, asks) ->
  exists x a1 a2, m = Good (inl x, a1) /\ f x = Good (inl y, a2) /\ asks = a1 ++ a2.
Proof.
  intros X Y m f y asks H. unfold abind in H. apply obind_good in H. destruct H as ([r a1] & M & H). cbn in H. destruct r as [x|er]; [|discriminate].
  apply obind_good in H. destruct H as ([r2 a2] & F & H). cbn in H. injection H as -> <-. eauto 8.
Qed.
Lemma abind_asks : forall X Y (m : act X) (f : X -> act Y) r asks, abind m f = Good (r, asks) ->
  exists r1 a1, m = Good (r1, a1) /\ ((exists er, r1 = inr er /\ r = inr er /\ asks = a1) \/ exists x a2, r1 = inl x /\ f x = Good (r, a2) /\ asks = a1 ++ a2).
Proof.
  intros X Y m f r asks H. unfold abind in H. apply obind_good in H. destruct H as ([r1 a1] & M & H). cbn in H. exists r1, a1. split; [exact M|].
  destruct r1 as [x|er]; [|injection H as <- <-; left; eauto]. apply obind_good in H. destruct H as ([r2 a2] & F & H). cbn in H. injection H as -> <-. right. eauto 8.
Qed.

(** ** Compiled arguments *)
Section Last.
Variables (P A : Type) (g : graph) (answers : nat -> tkey -> tkey -> P -> Prop).
Lemma runs_last : forall binds os t v (ss : list (cstep P A)) s, runs g answers binds os t v (ss ++ [s]) -> v = s_out s.
Proof.
  intros binds os t v ss s. revert os t. induction ss as [|x ss IH]; intros os t H; inversion H as [|o os' t' u v' s' ss' S R]; subst.
  - inversion R; subst. inversion S; subst; reflexivity.
  - eauto.
Qed.
Scheme runs_min := Minimality for runs Sort Prop with step_min := Minimality for step_of Sort Prop.
Lemma runs_weak : forall (b1 b2 : nat -> tkey -> list A -> Prop), (forall d e ps body t l, node g d = Some (NDef e ps) -> children g d = [body] -> b1 d t l -> b2 d t l) ->
  forall os t v ss, runs g answers b1 os t v ss -> runs g answers b2 os t v ss.
Proof.
  intros b1 b2 W. apply (runs_min P A g answers b1 (fun os t v ss => runs g answers b2 os t v ss) (fun o t u s => step_of g answers b2 o t u s)); intros; econstructor; eauto.
Qed.
End Last.

Lemma arg_compiled : forall P s e root anon g tg intr call_args map_params order shuffle fuel seeds brk (c0 c1 c : comp P binding cparam) n l a,
  start s e root anon = Ok (g, tg) -> has_literal_types (df_types s) ->
  fresh P binding cparam g order tg seeds = Good c0 -> compile g intr call_args map_params order shuffle fuel c0 brk = Good c ->
  grows c1 c -> at_ease c1 -> is_argument g c1 n l a ->
  settles c n TyGraph.Out_ (ar_out a) /\ (settles c n TyGraph.In_ (ar_in a) \/ kn c1 n TyGraph.In_ = Some TyGraph.Any) /\
  forall x t, ar_hold a = HExpr x t -> exists ss u, has_stack c x ss /\ settles c x TyGraph.In_ u /\
    runs g (answered intr c) (supplied call_args map_params c) (children g x) u (ar_out a) ss /\
    (x = n -> kn c1 n TyGraph.In_ <> Some TyGraph.Any -> u = ar_in a).
Proof.
  intros until a. intros HS HL F C G Ez (A1 & A2 & A3 & A4 & A5 & A6 & A7).
  assert (T : forall sd t, typed c1 n sd t -> settles c n sd t) by (intros sd t [Z|Z]; [now apply G|now apply Ez in Z]).
  split; [now apply T|]. split; [destruct A5 as [Z|(Z & _)]; auto|].
  intros x t E. rewrite E in *. inversion A2 as [| | | | |y ss st N S]; subst. pose proof (proj2 (proj2 G) _ _ S) as S'.
  destruct (exprs_runs _ _ _ _ _ _ _ _ _ _ _ _ _ _ _ _ _ _ _ HS HL F C _ _ S') as (u & v & U & V & R). pose proof (runs_last _ _ _ _ _ _ _ _ _ _ R) as ->.
  exists (ss ++ [st]), u. cbn in A3. rewrite <- A3. split; [auto|]. split; [auto|]. split; [auto|]. intros <- NA. destruct A5 as [Z|(Z & _)]; [|contradiction].
  apply T in Z. eapply settles_fun; eauto.
Qed.

Section Call.
Variables (P : Type) (g : graph) (rep : tkey -> ty).
Notation comp := (comp P binding cparam).
Implicit Types c : comp.

Lemma new_var_ok : forall c n x t l, Locals.new_var (c_lg c) n x t = Ok (inl l) <-> exists u s, l = Locals.EVar u s /\ declared c n x l.
Proof.
  intros c n x t l. unfold Locals.new_var, declared. destruct (nth_error (Locals.lg_nodes (c_lg c)) n) as [v|].
  2:{ split; [discriminate|]. intros (u & s & _ & v & i & Z & _). discriminate. }
  split.
  - intros H. destruct (alookup str_eqb x (Locals.va_map v)) as [[i d]|] eqn:L; [|discriminate]. cbn in H. destruct (Nat.eqb d n) eqn:E; [|discriminate].
    apply Nat.eqb_eq in E. subst d. destruct (nth_error (Locals.lg_locals (c_lg c)) i) as [[u s|to]|] eqn:I; try discriminate. injection H as <-.
    exists u, s. split; [reflexivity|]. exists v, i. auto.
  - intros (u & s & -> & w & i & W & L & I). injection W as <-. rewrite L. cbn. rewrite Nat.eqb_refl, I. reflexivity.
Qed.
Lemma new_lazy_ok : forall c n x to, Locals.new_lazy (c_lg c) n x to = Ok (inl tt) <-> exists to, declared c n x (Locals.EPtr to).
Proof.
  intros c n x t. unfold Locals.new_lazy, declared. destruct (nth_error (Locals.lg_nodes (c_lg c)) n) as [v|].
  2:{ split; [discriminate|]. intros (u & v & i & Z & _). discriminate. }
  split.
  - intros H. destruct (alookup str_eqb x (Locals.va_map v)) as [[i d]|] eqn:L; [|discriminate]. cbn in H. destruct (Nat.eqb d n) eqn:E; [|discriminate].
    apply Nat.eqb_eq in E. subst d. destruct (nth_error (Locals.lg_locals (c_lg c)) i) as [[u s|to]|] eqn:I; try discriminate.
    exists to, v, i. auto.
  - intros (to & w & i & W & L & I). injection W as <-. rewrite L. cbn. rewrite Nat.eqb_refl, I. reflexivity.
Qed.

(** ** What is passed *)
Lemma call_arg_ok : forall c args t p b asks, call_arg g c args t p = Good (inl b, asks) -> asks = [] /\ passes g c args t p b.
Proof.
  intros c args t p b asks H. unfold call_arg in H. apply obind_good in H. destruct H as (n & N & H). apply expect_good in N. apply obind_good in H. destruct H as (b0 & B0 & H).
  apply abind_good in H. destruct H as (b1 & a1 & a2 & S & H & ->). injection S as S. apply abind_good in H. destruct H as (b2 & a3 & a4 & R & H & ->).
  apply obind_good in H. destruct H as ([a|er] & C & H); [|discriminate]. injection H as <- <-.
  pose proof S as S'. apply supplied_ok in S'. destruct S' as (-> & _).
  assert (M : meets b0 (Takes t :: match snd (cp_param p) with PSpecified u => [Returns (key_of u)] | _ => [] end) b2 /\ a3 = []).
  { unfold param_ty in R. destruct (snd (cp_param p)) as [|u|]; try (injection R as <- <-; split; [|auto]; eapply meets_takes; [exact S|constructor]).
    pose proof R as R'. apply returns_ok in R'. destruct R' as (-> & _). split; [|auto]. eapply meets_takes; [exact S|]. eapply meets_returns; [exact R|constructor]. }
  destruct M as (M & ->). split; [reflexivity|]. exists n, a. split; [auto|]. split; [auto|]. eapply argument_ok; eauto.
Qed.
Lemma amapM_ok : forall X Y (f : X -> act Y) (R : X -> Y -> Prop), (forall x y asks, f x = Good (inl y, asks) -> asks = [] /\ R x y) ->
  forall l ys asks, amapM f l = Good (inl ys, asks) -> asks = [] /\ Forall2 R l ys.
Proof.
  intros X Y f R HF. induction l as [|x l IH]; intros ys asks H; cbn [amapM] in H; [injection H as <- <-; auto|].
  apply abind_good in H. destruct H as (y & a1 & a2 & F & H & ->). apply abind_good in H. destruct H as (ys' & a3 & a4 & M & H & ->). injection H as <- <-.
  apply HF in F. destruct F as (-> & F). apply IH in M. destruct M as (-> & M). auto.
Qed.
Lemma call_args_ok : forall c d t bs asks args, get_args g d = Ok args -> call_args g c d t = Good (inl bs, asks) ->
  asks = [] /\ Forall2 (passes g c args t) (match alookup Nat.eqb d (c_params c) with Some ps => ps | None => [] end) bs.
Proof.
  intros c d t bs asks args A H. unfold call_args in H. rewrite A in H. cbn [sure obind] in H. eapply amapM_ok; [|exact H]. intros x y a0 Z. eapply call_arg_ok; eauto.
Qed.

(** ** What parameters are set to *)
Lemma lazy_ok : forall c n x p b asks, map_lazy c n x p = Good (b, asks) -> (b = true /\ asks = [] /\ exists to, declared c x (fst p) (Locals.EPtr to)) \/
  (b = false /\ asks = [AskLazy (fst p) n x]).
Proof.
  intros c n x p b asks H. unfold map_lazy in H. apply obind_good in H. destruct H as (r & R & H). apply sure_good in R. destruct r as [[]|ch].
  - injection H as <- <-. left. apply new_lazy_ok in R. auto.
  - injection H as <- <-. auto.
Qed.
(** Everything [map_callsite] may do. *)
Lemma callsite_ok : forall c n x idx p r asks, map_callsite g rep c n x idx p = Good (r, asks) ->
  (exists t s, r = inl (Bound (CParam p t s idx)) /\ asks = [] /\ value_for g c n p /\ declared c x (fst p) (Locals.EVar t s)) \/
  (exists t, r = inl Asked /\ asks = [AskVar (fst p) (rep t) x] /\ value_for g c n p /\ typed c n TyGraph.Out_ t) \/
  ((r = inl (Stop (UnknownReturnTy cparam)) \/ r = inl (Stop (LgChange cparam)) \/ exists er, r = inr er) /\
   forall a, In a asks -> exists u m ts, snd p = PSpecified u /\ a = AskReturns m (key_of u) /\ stands g c n m /\ open c n TyGraph.Out_ ts /\ In (key_of u) ts).
Proof.
  intros c n x idx p r asks H. unfold map_callsite in H. apply obind_good in H. destruct H as (b & B & H). apply obind_good in H. destruct H as ([r1 a1] & R & H). cbn [fst snd] in H.
  assert (Q : (forall a, In a a1 -> exists u m ts, snd p = PSpecified u /\ a = AskReturns m (key_of u) /\ stands g c n m /\ open c n TyGraph.Out_ ts /\ In (key_of u) ts) /\
    (forall b', r1 = inl b' -> b' = b /\ a1 = [] /\ forall u, snd p = PSpecified u -> b_out b = KnTy (key_of u))).
  { unfold param_ty in R. destruct (snd p) as [|u|] eqn:E.
    - injection R as <- <-. split; [intros a []|]. intros b' Z. injection Z as <-. split; [auto|]. split; [auto|]. intros u Z. discriminate.
    - split.
      + intros a J. destruct (returns_asks _ g c n None b (key_of u) r1 a1 B R) as (Z & _). apply Z in J. destruct J as (m & ts & J). exists u, m, ts. tauto.
      + intros b' ->. apply returns_ok in R. destruct R as (-> & -> & O). split; [auto|]. split; [auto|]. intros u' Z. injection Z as <-. auto.
    - injection R as <- <-. split; [intros a []|]. intros b' Z. injection Z as <-. split; [auto|]. split; [auto|]. intros u Z. discriminate. }
  destruct Q as (Q1 & Q2). destruct r1 as [b'|er]; [|injection H as <- <-; right; right; auto].
  destruct (Q2 _ eq_refl) as (-> & -> & QO). apply obind_good in H. destruct H as (v & V & H). apply new_arg_ok in B. destruct B as (ki & ko & m & KI & KO & SM & ->).
  assert (W : v = inl None \/ v = inl (Some true) -> exists m, stands g c n m /\ forall x0, node g m = Some (NVar x0) -> exists l, finds c m x0 l).
  { intros W. exists m. split; [auto|]. intros y N. unfold var_exists in V. cbn [b_node] in V. rewrite N in V. apply obind_good in V. destruct V as ([b0 l0] & V & E). apply sure_good in V.
    destruct b0; [|injection E as <-; destruct W; discriminate]. destruct l0 as [l0|]; [|injection E as <-; destruct W; discriminate]. exists l0. now apply get_opt_get. }
  assert (K : v = inl None \/ v = inl (Some true) ->
    match return_ty (Builder m (known_of ki) (known_of ko) None) with
    | None => say (Stop (UnknownReturnTy cparam)) []
    | Some t => let! v := sure (Locals.new_var (c_lg c) x (fst p) (rep t)) in
        match v with
        | inl (Locals.EVar ty slot) => say (Bound (CParam p ty slot idx)) []
        | inl (Locals.EPtr _) => Crash Missing
        | inr _ => say Asked ([] ++ [AskVar (fst p) (rep t) x])
        end
    end = Good (r, asks) -> 
    (exists t s, r = inl (Bound (CParam p t s idx)) /\ asks = [] /\ value_for g c n p /\ declared c x (fst p) (Locals.EVar t s)) \/
    (exists t, r = inl Asked /\ asks = [AskVar (fst p) (rep t) x] /\ value_for g c n p /\ typed c n TyGraph.Out_ t) \/
    ((r = inl (Stop (UnknownReturnTy cparam)) \/ r = inl (Stop (LgChange cparam)) \/ exists er, r = inr er) /\
     forall a, In a asks -> exists u m ts, snd p = PSpecified u /\ a = AskReturns m (key_of u) /\ stands g c n m /\ open c n TyGraph.Out_ ts /\ In (key_of u) ts)).
  { intros Wv Z. unfold return_ty in Z. cbn [b_out] in Z. destruct (known_of ko) as [|t|ts] eqn:O; try (injection Z as <- <-; right; right; split; [auto|intros a []]).
    assert (T : typed c n TyGraph.Out_ t) by (eapply known_ty; eauto).
    assert (VF : value_for g c n p). { split; [|auto]. exists t. split; [auto|]. intros u E. apply QO in E. cbn in E. congruence. }
    apply obind_good in Z. destruct Z as (nv & NV & Z). apply sure_good in NV. destruct nv as [l|ch].
    - apply new_var_ok in NV. destruct NV as (u & s & -> & D). injection Z as <- <-. left. eauto 8.
    - injection Z as <- <-. right. left. exists t. auto. }
  destruct v as [[[|]|]|er]; try (apply K; [auto|exact H]); injection H as <- <-; right; right; (split; [eauto|intros a []]).
Qed.
Lemma idx_small : forall i, i < 256 -> N.to_nat (N.of_nat i mod 256) = i.
Proof. intros i H. rewrite N.mod_small by lia. apply Nat2N.id. Qed.
Lemma loop_ok : forall c x ps ns i acc chg cs asks, i + length ns <= 256 -> map_loop g rep c x ps ns i acc chg = Good (inl (Success cs), asks) ->
  chg = false /\ asks = [] /\ exists cs', cs = acc ++ cs' /\ sets g c x i ps ns cs'.
Proof.
  induction ps as [|p ps IH]; intros ns i acc chg cs asks L H; cbn [map_loop] in H.
  - destruct ns as [|n ns]; [|discriminate]. destruct chg; [discriminate|]. injection H as <- <-. split; [auto|]. split; [auto|]. exists []. split; [now rewrite app_nil_r|constructor].
  - destruct ns as [|n ns]; [discriminate|]. cbn in L. destruct (callsite p) eqn:C.
    + apply abind_good in H. destruct H as (m & a1 & a2 & M & H & ->). rewrite idx_small in M by lia. apply callsite_ok in M.
      destruct M as [(t & s & E & -> & V & D)|[(t & E & -> & V & T)|(E & Q)]].
      * injection E as ->. apply IH in H; [|lia]. destruct H as (-> & -> & cs' & -> & S). split; [auto|]. split; [auto|].
        exists (CParam p t s i :: cs'). split; [now rewrite <- app_assoc|]. econstructor; eauto.
      * injection E as ->. apply IH in H; [|lia]. destruct H as (Z & _). discriminate.
      * destruct E as [E|[E|(er & E)]]; [injection E as ->; discriminate|injection E as ->; discriminate|discriminate].
    + apply obind_good in H. destruct H as ([b a1] & M & H). cbn [fst snd] in H. apply abind_good in H. destruct H as (u & a2 & a3 & E & H & ->). injection E as <- <-.
      apply IH in H; [|lia]. destruct H as (O & -> & cs' & -> & S). apply orb_false_iff in O. destruct O as (-> & O). apply lazy_ok in M.
      destruct M as [(-> & -> & to & D)|(-> & _)]; [|discriminate]. split; [auto|]. split; [auto|]. exists cs'. split; [auto|]. econstructor; eauto.
Qed.
(** And if everything is there, it is found. *)
Lemma loop_all : forall c x i ps ns cs, sets g c x i ps ns cs -> i + length ns <= 256 -> (forall n, In n ns -> kn c n TyGraph.In_ <> None) ->
  forall acc, map_loop g rep c x ps ns i acc false = Good (inl (Success (acc ++ cs)), []).
Proof.
  intros c x i ps ns cs H. induction H as [i|i p ps n ns t s cs C V D H IH|i p ps n ns to cs C D H IH]; intros L K acc; cbn [map_loop].
  - now rewrite app_nil_r.
  - cbn in L. rewrite C. destruct V as ((u & T & U) & m & SM & F). assert (KN := K n (or_introl eq_refl)). destruct (kn c n TyGraph.In_) as [ki|] eqn:KI; [|contradiction].
    destruct (kn c n TyGraph.Out_) as [ko|] eqn:KO; [|destruct T as [[T|T]|T]; unfold kn in *; congruence]. pose proof T as T'. apply (known_ty _ _ _ _ _ _ KO) in T'.
    assert (M : map_callsite g rep c n x (N.to_nat (N.of_nat i mod 256)) p = Good (inl (Bound (CParam p t s i)), [])).
    { rewrite idx_small by lia. unfold map_callsite, new_arg. rewrite KI, KO. cbn [expect obind]. apply follow_iff in SM. rewrite SM. cbn [obind]. rewrite T'.
      assert (R : (match param_ty p return out ((builder + cerr) * list ask) with Some u0 => returns (Builder m (known_of ki) (KnTy u) None) u0 | None => say (Builder m (known_of ki) (KnTy u) None) [] end) = say (Builder m (known_of ki) (KnTy u) None) []).
      { unfold param_ty. destruct (snd p) as [|w|] eqn:E; try reflexivity. unfold returns. cbn. rewrite (U w eq_refl), tkey_refl. reflexivity. }
      rewrite R. cbn [say obind fst snd].
      assert (V : exists v, var_exists g c (Builder m (known_of ki) (KnTy u) None) = Good (inl v) /\ v <> Some false).
      { unfold var_exists. cbn [b_node]. destruct (node g m) as [y|] eqn:N; [|apply follow_iff in SM; exfalso; clear - SM N; induction SM; congruence].
        destruct y as [| | | | | | |y|]; try (eexists; split; [reflexivity|discriminate]). destruct (F y eq_refl) as (l & Fl). apply get_opt_get in Fl. rewrite Fl. cbn. eexists. split; [reflexivity|discriminate]. }
      destruct V as (v & -> & NV). cbn [obind]. assert (NW : Locals.new_var (c_lg c) x (fst p) (rep u) = Ok (inl (Locals.EVar t s))) by (apply new_var_ok; eauto).
      destruct v as [[|]|]; [|now destruct NV|]; cbn [return_ty b_out]; rewrite NW; reflexivity. }
    rewrite M. unfold abind. cbn [obind fst snd]. rewrite IH; [|lia|intros n' J; apply K; now right]. cbn. now rewrite <- app_assoc.
  - cbn in L. rewrite C. unfold map_lazy. assert (NW : Locals.new_lazy (c_lg c) x (fst p) n = Ok (inl tt)) by (apply new_lazy_ok; eauto). rewrite NW. cbn [sure obind fst snd].
    unfold abind. cbn [say obind fst snd]. cbn [negb orb]. rewrite IH; [|lia|intros n' J; apply K; now right]. reflexivity.
Qed.
Lemma loop_asks : forall c x ps ns i acc chg r asks, map_loop g rep c x ps ns i acc chg = Good (r, asks) -> forall a, In a asks -> may_ask g rep c x ps ns a.
Proof.
  assert (K : forall c x p ps n ns a, may_ask g rep c x ps ns a -> may_ask g rep c x (p :: ps) (n :: ns) a) by (intros c x p ps n ns a (j & p0 & n0 & J1 & J2 & J3); exists (S j), p0, n0; auto).
  induction ps as [|p ps IH]; intros ns i acc chg r asks H a J; cbn [map_loop] in H.
  - destruct ns as [|n ns]; [destruct chg|]; injection H as <- <-; destruct J.
  - destruct ns as [|n ns]; [injection H as <- <-; destruct J|]. destruct (callsite p) eqn:C.
    + apply abind_asks in H. destruct H as (r1 & a1 & M & H). apply callsite_ok in M.
      assert (Q : In a a1 -> may_ask g rep c x (p :: ps) (n :: ns) a).
      { intros Z. exists 0, p, n. split; [auto|]. split; [auto|]. destruct M as [(t & s & _ & -> & _)|[(t & _ & -> & V & T)|(_ & Q)]]; [destruct Z|destruct Z as [<-|[]]; eauto 8|].
        apply Q in Z. destruct Z as (u & m & ts & Z1 & -> & Z2 & Z3 & Z4). split; [eauto|]. split; [auto|eauto]. }
      destruct H as [(er & -> & -> & ->)|(m & a2 & -> & H & ->)]; [auto|]. apply in_app_iff in J. destruct J as [J|J]; [auto|]. destruct m as [cp| |st]; [apply K; eauto|apply K; eauto|injection H as <- <-; destruct J].
    + apply obind_good in H. destruct H as ([b a1] & M & H). cbn [fst snd] in H. apply abind_asks in H. destruct H as (r1 & a2 & E & H). injection E as <- <-.
      destruct H as [(er & Z & _)|(y & a3 & _ & H & ->)]; [discriminate|]. apply in_app_iff in J. destruct J as [J|J]; [|apply K; eauto].
      apply lazy_ok in M. destruct M as [(_ & -> & _)|(_ & ->)]; [destruct J|]. destruct J as [<-|[]]. exists 0, p, n. cbn. auto 8.
Qed.

Section Top.
Variables (s : defs) (e : expr) (root : tkey) (anon : list tkey) (tg : TyGraph.tgraph tkey).
Hypothesis HS : start s e root anon = Ok (g, tg).

Lemma made_g : made (df_impls s) g.
Proof.
  pose proof HS as H. unfold start in H. destruct (init s e) as [[g0 cs]| |] eqn:E0; cbn [rbind fst snd] in H; try discriminate.
  destruct (init_tg g0 (full (df_types s)) root) as [t0| |]; cbn [rbind] in H; try discriminate.
  destruct (TyGraph.apply_chgs tkey_eqb t0 _ false) as [t1 [b1|?|]]; try discriminate. injection H as <- _. now apply init_made in E0.
Qed.
Lemma def_facts : forall d t ps o k, node g d = Some (NDef t ps) -> In (k, d) (keyed g o) ->
  exists body, children g d = [body] /\ def_expr g d = Ok body /\ def_params g d = Ok ps /\ get_args g d = Ok (firstn 256 (args_below g o)) /\
  ((flags_below g o = [] /\ get_flags g d = Ok []) \/ (flags_below g o <> [] /\ exists f fs, get_flags g d = Ok (f :: fs))).
Proof.
  intros d t ps o k N K. pose proof made_g as M. destruct (def_expr_ok _ _ M d t ps N) as (x & t' & E & C & Nx).
  exists x. split; [auto|]. split; [auto|]. split; [unfold def_params; now rewrite N|]. split; [eapply get_args_all; eauto|].
  pose proof K as K'. apply AstExpandProofs.keyed_in in K'. destruct (get_terms_all g o d k (m_inv _ _ M) K') as (_ & T). unfold get_flags. rewrite T. cbn [rbind].
  assert (FL : forall n, In n (flags_below g o) -> exists f, node g n = Some (NFlag f)).
  { intros n J. unfold flags_below in J. apply filter_In in J. destruct J as (_ & J). unfold is_flag in J. destruct (node g n) as [[]|]; try discriminate. eauto. }
  destruct (flags_below g o) as [|f fs]; [left; auto|right]. split; [discriminate|].
  assert (R : forall l, (forall n, In n l -> exists f, node g n = Some (NFlag f)) -> exists ys, rmapM (fun n => match node g n with Some (NFlag t) => Ok t | _ => Panic end) l = Ok ys /\ length ys = length l).
  { induction l as [|n l IH]; intros Z; [exists []; auto|]. destruct (Z n (or_introl eq_refl)) as (f0 & F0). destruct IH as (ys & IH & L); [intros; apply Z; now right|].
    exists (f0 :: ys). cbn. rewrite F0. cbn. rewrite IH. cbn. auto. }
  destruct (R (firstn 256 (f :: fs))) as (ys & E1 & L).
  - intros n J. apply FL. rewrite <- (firstn_skipn 256 (f :: fs)). apply in_or_app. now left.
  - rewrite E1. destruct ys as [|y ys]; [discriminate|eauto].
Qed.
Lemma firstn_le : forall X (l : list X) k, length (firstn k l) <= k.
Proof. intros. rewrite firstn_length. lia. Qed.

Lemma params_ok : forall c d t ps o k body cs asks, node g d = Some (NDef t ps) -> In (k, d) (keyed g o) -> children g d = [body] ->
  map_params g rep c d = Good (inl (Success cs), asks) -> asks = [] /\ flags_below g o = [] /\ sets g c body 0 ps (firstn 256 (args_below g o)) cs.
Proof.
  intros c d t ps o k body cs asks N K B H. destruct (def_facts d t ps o k N K) as (x & C & E & DP & A & F). assert (x = body) as -> by congruence.
  unfold map_params in H. destruct F as [(F & FG)|(F & f & fs & FG)]; rewrite FG in H; cbn [sure obind] in H; [|discriminate].
  rewrite A, DP, E in H. cbn [sure obind] in H. apply loop_ok in H; [|rewrite Nat.add_0_l; apply firstn_le]. destruct H as (_ & -> & cs' & -> & S). auto.
Qed.
Lemma params_all : forall c d t ps o k body cs, node g d = Some (NDef t ps) -> In (k, d) (keyed g o) -> children g d = [body] ->
  (forall n, In n (args_below g o) -> kn c n TyGraph.In_ <> None) -> flags_below g o = [] -> sets g c body 0 ps (firstn 256 (args_below g o)) cs ->
  map_params g rep c d = Good (inl (Success cs), []).
Proof.
  intros c d t ps o k body cs N K B KN FB S. destruct (def_facts d t ps o k N K) as (x & C & E & DP & A & F). assert (x = body) as -> by congruence.
  unfold map_params. destruct F as [(F & FG)|(F & _)]; [|contradiction]. rewrite FG. cbn [sure obind]. rewrite A, DP, E. cbn [sure obind].
  apply (loop_all _ _ _ _ _ _ S); [rewrite Nat.add_0_l; apply firstn_le|]. intros n J. apply KN. rewrite <- (firstn_skipn 256 (args_below g o)). apply in_or_app. now left.
Qed.
Lemma params_iff : forall c d t ps o k body cs, node g d = Some (NDef t ps) -> In (k, d) (keyed g o) -> children g d = [body] ->
  (forall n, In n (args_below g o) -> kn c n TyGraph.In_ <> None) ->
  ((exists asks, map_params g rep c d = Good (inl (Success cs), asks)) <-> flags_below g o = [] /\ sets g c body 0 ps (firstn 256 (args_below g o)) cs).
Proof.
  intros c d t ps o k body cs N K B KN. split.
  - intros (asks & H). destruct (params_ok _ _ _ _ _ _ _ _ _ N K B H) as (_ & F & S). auto.
  - intros (F & S). exists []. eapply params_all; eauto.
Qed.
Lemma params_flags : forall c d t ps o k, node g d = Some (NDef t ps) -> In (k, d) (keyed g o) -> flags_below g o <> [] ->
  map_params g rep c d = Good (inr err_flags, []).
Proof.
  intros c d t ps o k N K Z. destruct (def_facts d t ps o k N K) as (x & C & E & DP & A & F). unfold map_params. destruct F as [(F & _)|(_ & f & fs & ->)]; [contradiction|reflexivity].
Qed.
Lemma params_asks : forall c d t ps o k body r asks, node g d = Some (NDef t ps) -> In (k, d) (keyed g o) -> children g d = [body] ->
  map_params g rep c d = Good (r, asks) -> forall a, In a asks -> may_ask g rep c body ps (args_below g o) a.
Proof.
  intros c d t ps o k body r asks N K B H a J. destruct (def_facts d t ps o k N K) as (x & C & E & DP & A & F). assert (x = body) as -> by congruence.
  unfold map_params in H. destruct F as [(F & FG)|(F & f & fs & FG)]; rewrite FG in H; cbn [sure obind] in H; [|injection H as <- <-; destruct J].
  rewrite A, DP, E in H. cbn [sure obind] in H. pose proof (loop_asks _ _ _ _ _ _ _ _ _ H a J) as (i & p & n & I1 & I2 & I3). exists i, p, n. split; [auto|]. split; [|auto].
  rewrite <- (firstn_skipn 256 (args_below g o)). rewrite nth_error_app1; [auto|]. apply nth_error_Some. congruence.
Qed.
Lemma sets_length : forall c x i ps ns cs, sets g c x i ps ns cs -> length ps = length ns.
Proof. intros c x i ps ns cs H. induction H; cbn; auto. Qed.
(** A definition of more than 256 parameters. *)
Lemma params_many : forall c d t ps cs asks, node g d = Some (NDef t ps) -> map_params g rep c d = Good (inl (Success cs), asks) -> length ps <= 256.
Proof.
  intros c d t ps cs asks N H. pose proof made_g as M. destruct (cmd_parent_ok _ _ M d _ N I) as (o & to & k & _ & _ & K & _).
  destruct (def_facts d t ps o k N K) as (x & C & _). destruct (params_ok _ _ _ _ _ _ _ _ _ N K C H) as (_ & _ & S). apply sets_length in S. rewrite S. apply firstn_le.
Qed.

Lemma binds_ok : forall c d t bs e0 ps body, node g d = Some (NDef e0 ps) -> children g d = [body] ->
  CompileSpec.supplied (fun c d t => shown (call_args g c d t)) (fun c d => shown (map_params g rep c d)) c d t bs -> called_with g c d t bs.
Proof.
  intros c d t bs e0 ps body N B (c0 & asks & G & Ez & MP & CA).
  pose proof made_g as M. destruct (cmd_parent_ok _ _ M d _ N I) as (o & to & k & _ & _ & K & _).
  destruct (def_facts d e0 ps o k N K) as (x & C & _ & _ & A & _).
  assert (CA' : call_args g c0 d t = Good (inl bs, asks)) by (destruct (call_args g c0 d t); cbn in CA; try discriminate; congruence).
  destruct (call_args_ok _ _ _ _ _ _ A CA') as (_ & F2). exists o, k, e0, ps, body. split; [auto|]. split; [auto|]. split; [auto|]. exists c0. split; [auto|]. split; [auto|].
  destruct (alookup Nat.eqb d (c_params c0)) as [cs|] eqn:L; [|left; inversion F2; auto]. right.
  destruct (MP _ _ L) as (c1 & a1 & G1 & E1 & P1). assert (P1' : map_params g rep c1 d = Good (inl (Success cs), a1)) by (destruct (map_params g rep c1 d); cbn in P1; try discriminate; congruence).
  destruct (params_ok _ _ _ _ _ _ _ _ _ N K B P1') as (_ & FB & S). exists c1, cs. auto.
Qed.
End Top.
End Call.

Lemma call_root : forall P s e root anon g tg rep intr order shuffle fuel seeds (c : comp P binding cparam) stack,
  start s e root anon = Ok (g, tg) -> has_literal_types (df_types s) ->
  compile_root g intr (fun c d t => shown (call_args g c d t)) (fun c d => shown (map_params g rep c d)) order shuffle fuel tg seeds = Good (c, stack) ->
  exists v, settles c 0 TyGraph.Out_ v /\ runs g (answered intr c) (called_with g c) (children g 0) root v stack.
Proof.
  intros until stack. intros HS HL H. destruct (root_runs _ _ _ _ _ _ _ _ _ _ _ _ _ _ _ _ _ _ HS HL H) as (_ & v & _ & V & R). exists v. split; [auto|].
  eapply runs_weak; [|exact R]. intros d e0 ps body t l N B S. eapply binds_ok; eauto.
Qed.
