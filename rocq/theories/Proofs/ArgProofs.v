(** Arguments are what they were declared to be. *)
From Coq Require Import String List NArith Bool Arith Lia.
From Verif Require Import Model.Base Model.Value Model.Ast Model.Registry Model.AstGraph Model.TyBuild Model.Compile Model.ArgApi Spec.AstGraphSpec Spec.TyBuildSpec Spec.CompileSpec Spec.ArgSpec
  Proofs.RegistryProofs Proofs.TyBuildBase Proofs.TyBuildNodes Proofs.CompileProofs Proofs.CompileInv.
From Verif Require Model.TyGraph Model.Locals Spec.TyGraphSpec Proofs.TyGraphProofs.
Import ListNotations.

Lemma tkey_refl : forall t, tkey_eqb t t = true.
Proof. intros t. now apply tkey_eqb_eq. Qed.

Section Arg.
Variables (P : Type) (g : graph).
Notation comp := (comp P binding cparam).
Implicit Types c : comp.

(** ** Pointers *)
Lemma get_opt_get : forall lg n x l, Locals.get lg n x = Ok l <-> Locals.get_opt lg n x = Ok (true, Some l).
Proof.
  intros lg n x l. unfold Locals.get, Locals.get_opt. destruct (Locals.sealed lg n) as [[|]| |]; cbn [rbind]; try (split; intros; discriminate).
  destruct (Locals.get_ lg n x) as [[l'|]| |]; cbn [rbind]; split; intros H; try discriminate; now injection H as <-.
Qed.
Lemma get_opt_some : forall lg n x b l, Locals.get_opt lg n x = Ok (b, Some l) -> b = true.
Proof.
  intros lg n x b l H. unfold Locals.get_opt in H. destruct (Locals.sealed lg n) as [[|]| |]; cbn [rbind] in H; try discriminate.
  destruct (Locals.get_ lg n x); cbn [rbind] in H; try discriminate. now injection H as <- _.
Qed.
Lemma follow_stands : forall fuel c n m, follow g fuel c n = Good m -> stands g c n m.
Proof.
  induction fuel as [|fuel IH]; intros c n m H; cbn [follow] in H.
  - destruct (node g n) as [x|] eqn:N; [|discriminate].
    assert (K : (forall t, x = NVar t -> unpointed c n t) -> n = m -> stands g c n m) by (intros U <-; econstructor; eauto).
    destruct x as [| | | | | | |t|]; try (apply K; [intros; discriminate|now injection H]).
    apply obind_good in H. destruct H as ([b l] & L & H). apply sure_good in L. cbn [snd] in H.
    assert (Z : (forall to, l <> Some (Locals.EPtr to)) -> Good n = Good m -> stands g c n m).
    { intros U E. apply K; [|congruence]. intros t' E'. injection E' as <-. exists b, l. auto. }
    destruct l as [[t' s|to]|]; [apply Z; [intros; discriminate|exact H]|discriminate|apply Z; [intros; discriminate|exact H]].
  - destruct (node g n) as [x|] eqn:N; [|discriminate].
    assert (K : (forall t, x = NVar t -> unpointed c n t) -> n = m -> stands g c n m) by (intros U <-; econstructor; eauto).
    destruct x as [| | | | | | |t|]; try (apply K; [intros; discriminate|now injection H]).
    apply obind_good in H. destruct H as ([b l] & L & H). apply sure_good in L. cbn [snd] in H.
    assert (Z : (forall to, l <> Some (Locals.EPtr to)) -> Good n = Good m -> stands g c n m).
    { intros U E. apply K; [|congruence]. intros t' E'. injection E' as <-. exists b, l. auto. }
    destruct l as [[t' s|to]|]; [apply Z; [intros; discriminate|exact H]| |apply Z; [intros; discriminate|exact H]].
    apply IH in H. eapply stands_for; [exact N| |exact H]. apply get_opt_get. pose proof (get_opt_some _ _ _ _ _ L) as ->. exact L.
Qed.
(** The variables one comes across. *)
Inductive trail c : nat -> list nat -> nat -> Prop :=
| trail_end : forall n x, node g n = Some x -> (forall t, x = NVar t -> unpointed c n t) -> trail c n [] n
| trail_step : forall n t to l m, node g n = Some (NVar t) -> finds c n t (Locals.EPtr to) -> trail c to l m -> trail c n (n :: l) m.
Lemma stands_trail : forall c n m, stands g c n m -> exists l, trail c n l m.
Proof. intros c n m H. induction H as [n x N U|n t to m N F _ (l & IH)]; [exists []; econstructor; eauto|exists (n :: l); econstructor; eauto]. Qed.
Lemma trail_fun : forall c n l m, trail c n l m -> forall l' m', trail c n l' m' -> l' = l /\ m' = m.
Proof.
  intros c n l m H. induction H as [n x N U|n t to l m N F H IH]; intros l' m' H'; inversion H' as [n1 x1 N1 U1|n1 t1 to1 l1 m1 N1 F1 H1]; subst; auto.
  - assert (x = NVar t1) as -> by congruence. destruct (U t1 eq_refl) as (b & l2 & G & Z). apply get_opt_get in F1. rewrite G in F1. injection F1 as _ ->. now destruct (Z to1).
  - assert (x1 = NVar t) as -> by congruence. destruct (U1 t eq_refl) as (b & l2 & G & Z). apply get_opt_get in F. rewrite G in F. injection F as _ ->. now destruct (Z to).
  - assert (t1 = t) as -> by congruence. unfold finds in *. assert (to1 = to) as -> by congruence. destruct (IH _ _ H1) as (-> & ->). auto.
Qed.
Lemma trail_from : forall c n l m a r1 r2, trail c n l m -> l = r1 ++ a :: r2 -> trail c a (a :: r2) m.
Proof.
  intros c n l m a r1 r2 H. revert r1. induction H as [n x N U|n t to l m N F H IH]; intros r1 E; [destruct r1; discriminate|].
  destruct r1 as [|y r1]; cbn in E; injection E as -> ->; [econstructor; eauto|eauto].
Qed.
Lemma trail_nodup : forall c n l m, trail c n l m -> NoDup l.
Proof.
  intros c n l m H. induction H as [n x N U|n t to l m N F H IH]; constructor; auto. intros I. apply in_split in I. destruct I as (r1 & r2 & E).
  pose proof (trail_from _ _ _ _ _ _ _ H E) as T. assert (T' : trail c n (n :: l) m) by (econstructor; eauto).
  destruct (trail_fun _ _ _ _ T' _ _ T) as (Z & _). injection Z as Z. subst l. apply (f_equal (@length nat)) in Z. rewrite app_length in Z. cbn in Z. lia.
Qed.
Lemma trail_in : forall c n l m a, trail c n l m -> In a l -> a < length (g_nodes g).
Proof.
  intros c n l m a H. induction H as [n x N U|n t to l m N F H IH]; intros I; [destruct I|]. destruct I as [<-|I]; [|auto].
  unfold node in N. apply nth_error_Some. congruence.
Qed.
Lemma trail_follow : forall c n l m, trail c n l m -> forall fuel, length l <= fuel -> follow g fuel c n = Good m.
Proof.
  intros c n l m H. induction H as [n x N U|n t to l m N F H IH]; intros fuel L.
  - assert (K : follow g fuel c n = match x with NVar t => let! r := sure (Locals.get_opt (c_lg c) n (tg_str t)) in
      match snd r with Some (Locals.EPtr to) => match fuel with 0 => NoFuel | S fuel => follow g fuel c to end | _ => Good n end | _ => Good n end) by (destruct fuel; cbn [follow]; rewrite N; reflexivity).
    rewrite K. destruct x as [| | | | | | |t|]; try reflexivity. destruct (U t eq_refl) as (b & l & E & Z). rewrite E. cbn [sure obind snd].
    destruct l as [[t' s|to]|]; try reflexivity. now destruct (Z to).
  - cbn in L. destruct fuel as [|fuel]; [lia|]. cbn [follow]. rewrite N. apply get_opt_get in F. rewrite F. cbn [sure obind snd]. apply IH. lia.
Qed.
Lemma follow_iff : forall c n m, follow g (length (g_nodes g)) c n = Good m <-> stands g c n m.
Proof.
  intros c n m. split; [apply follow_stands|]. intros H. destruct (stands_trail _ _ _ H) as (l & T). apply (trail_follow _ _ _ _ T).
  pose proof (trail_nodup _ _ _ _ T) as ND. assert (I : incl l (seq 0 (length (g_nodes g)))) by (intros a J; apply in_seq; pose proof (trail_in _ _ _ _ _ T J); lia).
  pose proof (NoDup_incl_length ND I) as Z. now rewrite seq_length in Z.
Qed.

(** ** Types *)
Lemma known_ty : forall c n sd k t, kn c n sd = Some k -> (known_of k = KnTy t <-> typed c n sd t).
Proof.
  intros c n sd k t K. unfold typed, settles, TyGraphSpec.settled. unfold kn in *. rewrite K. destruct k as [|u|u|ts]; cbn [known_of].
  - split; [discriminate|intros [[H|H]|H]; discriminate].
  - split; [intros H; injection H as ->; auto|intros [[H|H]|H]; congruence].
  - split; [intros H; injection H as ->; auto|intros [[H|H]|H]; congruence].
  - unfold TyGraph.only. destruct ts as [|u [|v ts]]; (split; [intros H; try discriminate|intros [[H|H]|H]; try discriminate]); [injection H as ->; auto|now injection H as ->].
Qed.
Lemma known_any : forall k, known_of k = KnAny <-> k = TyGraph.Any.
Proof. intros [|u|u|ts]; cbn [known_of]; try (split; intros; discriminate); [tauto|]. destruct (TyGraph.only ts); split; discriminate. Qed.
Lemma known_tys : forall c n sd k ts, kn c n sd = Some k -> (known_of k = KnTys ts <-> open c n sd ts).
Proof.
  intros c n sd k ts K. unfold open. rewrite K. destruct k as [|u|u|us]; cbn [known_of].
  1-3: split; [discriminate|intros (H & _); discriminate].
  unfold TyGraph.only. destruct us as [|u [|v us]]; split; try discriminate.
  - intros H. injection H as <-. split; [reflexivity|cbn; lia].
  - intros (H & _). now injection H as <-.
  - intros (H & L). injection H as <-. cbn in L. lia.
  - intros H. injection H as <-. split; [reflexivity|cbn; lia].
  - intros (H & _). now injection H as <-.
Qed.
Lemma typed_fun : forall c n sd t u, typed c n sd t -> typed c n sd u -> t = u.
Proof.
  intros c n sd t u H1 H2. destruct (kn c n sd) as [k|] eqn:K.
  - apply (known_ty _ _ _ _ _ K) in H1, H2. congruence.
  - destruct H1 as [[H|H]|H]; unfold kn in *; congruence.
Qed.
Lemma ty_at_typed : forall c n sd t, ty_at c n sd = Some t <-> typed c n sd t.
Proof.
  intros c n sd t. unfold ty_at, typed, settles, TyGraphSpec.settled. unfold kn. destruct (TyGraph.kn_at (fst (c_tg c)) (n, sd)) as [[|u|u|[|u [|v ts]]]|]; cbn;
    (split; [intros H; try discriminate; injection H as ->; auto|intros [[H|H]|H]; congruence]).
Qed.

(** ** What is held *)
Lemma last_out_some : forall (ss : list (cstep P binding)) t, last_out ss = Some t <-> exists r s, ss = r ++ [s] /\ s_out s = t.
Proof.
  induction ss as [|s ss IH]; intros t.
  - split; [discriminate|]. intros ([|? r] & s & E & _); discriminate.
  - destruct ss as [|s2 ss].
    + cbn. split; [intros H; injection H as <-; exists [], s; auto|]. intros (r & s' & E & <-). destruct r as [|? [|? r]]; [now injection E as <-|discriminate|discriminate].
    + change (last_out (s :: s2 :: ss)) with (last_out (s2 :: ss)). rewrite IH. split.
      * intros (r & s' & E & H). exists (s :: r), s'. rewrite E. auto.
      * intros (r & s' & E & H). destruct r as [|x r]; [discriminate|]. cbn in E. injection E as -> E. eauto.
Qed.
Lemma hold_of_ok : forall c n h, hold_of g c n = Good (inl h) <-> holds g c n h.
Proof.
  intros c n h. split.
  - intros H. unfold hold_of in H. destruct (node g n) as [[| | | |x|z x|p x|x|x]|] eqn:N; try discriminate.
    + injection H as <-. econstructor; eauto.
    + injection H as <-. econstructor; eauto.
    + destruct p; try (injection H as <-; eapply holds_pound; [exact N|cbn; auto 8]).
      apply obind_good in H. destruct H as (t & T & H). apply expect_good in T. injection H as <-. eapply holds_input; [exact N|]. now apply ty_at_typed.
    + destruct (Locals.get (c_lg c) n (tg_str x)) as [[t s|to]|[|[|[|k]]]|] eqn:G; try discriminate. injection H as <-. eapply holds_var; eauto.
    + destruct (alookup Nat.eqb n (c_exprs c)) as [ss|] eqn:L; [|discriminate]. apply obind_good in H. destruct H as (t & T & H). injection H as <-.
      apply expect_good, last_out_some in T. destruct T as (r & s & -> & <-). eapply holds_expr; eauto.
  - intros H. unfold hold_of. destruct H as [x N|z x N|p x t N I|x t N T|x t s N F|x ss s N S]; rewrite N; try reflexivity.
    + destruct I as [I|[I|[I|[I|[]]]]]; injection I as <- <-; reflexivity.
    + apply ty_at_typed in T. rewrite T. reflexivity.
    + unfold finds in F. rewrite F. reflexivity.
    + unfold has_stack in S. rewrite S. assert (L : last_out (ss ++ [s]) = Some (s_out s)) by (apply last_out_some; eauto). rewrite L. reflexivity.
Qed.

(** ** Building an argument *)
Lemma new_arg_ok : forall c n blk b, new_arg g c n blk = Good b -> exists i o m, kn c n TyGraph.In_ = Some i /\ kn c n TyGraph.Out_ = Some o /\
  stands g c n m /\ b = Builder m (known_of i) (known_of o) blk.
Proof.
  intros c n blk b H. unfold new_arg in H. apply obind_good in H. destruct H as (i & I & H). apply obind_good in H. destruct H as (o & O & H).
  apply obind_good in H. destruct H as (m & M & H). injection H as <-. apply expect_good in I, O. apply follow_iff in M. eauto 8.
Qed.
(** What a demand does to a builder. *)
Lemma supplied_ok : forall b t b1 asks, ArgApi.supplied b (Some t) = (inl b1, asks) ->
  asks = [] /\ b_node b1 = b_node b /\ b_out b1 = b_out b /\ b_blk b1 = b_blk b /\ b_in b1 = KnTy t /\ (b_in b = KnAny \/ b_in b = KnTy t).
Proof.
  intros b t b1 asks H. unfold ArgApi.supplied in H. destruct b as [n i o k]. cbn in *. destruct i as [|u|us]; cbn in H.
  - rewrite tkey_refl in H. injection H as <- <-. cbn. auto 10.
  - destruct (tkey_eqb u t) eqn:E; [|discriminate]. injection H as <- <-. apply tkey_eqb_eq in E. subst u. cbn. auto 10.
  - destruct (TyGraph.mem tkey_eqb t us); discriminate.
Qed.
Lemma returns_ok : forall b t b1 asks, returns b t = Good (inl b1, asks) -> asks = [] /\ b1 = b /\ b_out b = KnTy t.
Proof.
  intros b t b1 asks H. unfold returns in H. destruct (b_out b) as [|u|us] eqn:O; try discriminate.
  destruct (tkey_eqb u t) eqn:E; [|discriminate]. injection H as <- <-. apply tkey_eqb_eq in E. subst. auto.
Qed.
Lemma meets_ok : forall b l b', meets b l b' -> b_node b' = b_node b /\ b_out b' = b_out b /\ b_blk b' = b_blk b /\
  (forall t, In (Takes t) l -> b_in b' = KnTy t) /\ (forall t, In (Returns t) l -> b_out b = KnTy t) /\
  (b_in b' = b_in b \/ b_in b = KnAny /\ exists t, b_in b' = KnTy t /\ In (Takes t) l).
Proof.
  assert (K : forall b t b1 l b2, b_node b1 = b_node b -> b_out b1 = b_out b -> b_blk b1 = b_blk b -> b_in b1 = KnTy t -> (b_in b = KnAny \/ b_in b = KnTy t) ->
    (b_node b2 = b_node b1 /\ b_out b2 = b_out b1 /\ b_blk b2 = b_blk b1 /\
      (forall t, In (Takes t) l -> b_in b2 = KnTy t) /\ (forall t, In (Returns t) l -> b_out b1 = KnTy t) /\
      (b_in b2 = b_in b1 \/ b_in b1 = KnAny /\ exists t, b_in b2 = KnTy t /\ In (Takes t) l)) ->
    b_node b2 = b_node b /\ b_out b2 = b_out b /\ b_blk b2 = b_blk b /\
      (forall u, In (Takes u) (Takes t :: l) -> b_in b2 = KnTy u) /\ (forall u, In (Returns u) (Takes t :: l) -> b_out b = KnTy u) /\
      (b_in b2 = b_in b \/ b_in b = KnAny /\ exists u, b_in b2 = KnTy u /\ In (Takes u) (Takes t :: l))).
  { intros b t b1 l b2 E1 E2 E3 E4 E5 (I1 & I2 & I3 & I4 & I5 & I6).
    assert (B2 : b_in b2 = KnTy t) by (destruct I6 as [I6|(I6 & _)]; congruence).
    split; [congruence|]. split; [congruence|]. split; [congruence|].
    split; [intros u [H|H]; [now injection H as ->|now apply I4]|]. split; [intros u [H|H]; [discriminate|rewrite <- E2; now apply I5]|].
    destruct E5 as [E5|E5]; [right; split; [auto|]; exists t; split; [auto|now left]|left; congruence]. }
  intros b l b' H. induction H as [b|b t b1 asks l b2 S H IH|b t b1 asks l b2 B S H IH|b t b1 asks l b2 R H IH].
  - split; [auto|]. split; [auto|]. split; [auto|]. split; [intros t []|]. split; [intros t []|auto].
  - apply supplied_ok in S. destruct S as (_ & S1 & S2 & S3 & S4 & S5). eapply K; eauto.
  - assert (S' : ArgApi.supplied b (Some t) = (inl b1, asks)) by (unfold ArgApi.supplied in S |- *; rewrite B in S |- *; exact S).
    apply supplied_ok in S'. destruct S' as (_ & S1 & S2 & S3 & S4 & S5). eapply K; eauto.
  - apply returns_ok in R. destruct R as (_ & -> & O). destruct IH as (I1 & I2 & I3 & I4 & I5 & I6).
    split; [auto|]. split; [auto|]. split; [auto|]. split; [intros u [Z|Z]; [discriminate|auto]|]. split; [intros u [Z|Z]; [now injection Z as <-|auto]|].
    destruct I6 as [I6|(I6 & u & I7 & I8)]; [auto|]. right. split; [auto|]. exists u. split; [auto|now right].
Qed.
Lemma concrete_ok : forall c b a, concrete g c b = Good (inl a) -> exists i o h, b_in b = KnTy i /\ b_out b = KnTy o /\ holds g c (b_node b) h /\ hold_ty h = o /\ a = Argument (b_node b) i o h.
Proof.
  intros c b a H. unfold concrete in H. apply obind_good in H. destruct H as ([v|er] & _ & H); [|discriminate].
  destruct (b_in b) as [|i|us]; try discriminate. destruct (b_out b) as [|o|us]; try discriminate.
  apply obind_good in H. destruct H as ([h|er] & Hh & H); [|discriminate]. destruct (tkey_eqb (hold_ty h) o) eqn:E; [|discriminate]. injection H as <-.
  apply tkey_eqb_eq in E. apply hold_of_ok in Hh. exists i, o, h. auto.
Qed.
Lemma argument_ok : forall c n blk b l b' a, new_arg g c n blk = Good b -> meets b l b' -> concrete g c b' = Good (inl a) -> is_argument g c n l a.
Proof.
  intros c n blk b l b' a N M C. apply new_arg_ok in N. destruct N as (i & o & m & I & O & S & ->). apply meets_ok in M. cbn in M. destruct M as (M1 & M2 & M3 & M4 & M5 & M6).
  apply concrete_ok in C. destruct C as (it & ot & h & C1 & C2 & C3 & C4 & ->). rewrite M1 in *. rewrite M2 in *. unfold is_argument. cbn [ar_node ar_in ar_out ar_hold].
  split; [exact S|]. split; [exact C3|]. split; [exact C4|]. split; [eapply known_ty; eauto|]. split.
  - destruct M6 as [M6|(M6 & t & M7 & M8)]; [left; eapply known_ty; [exact I|congruence]|]. right. apply known_any in M6. subst i. rewrite C1 in M7. injection M7 as ->. auto.
  - split; intros t Z; [apply M4 in Z|apply M5 in Z]; congruence.
Qed.
(** Such an argument is accepted. *)
Lemma accepted : forall c n blk m i o h, stands g c n m -> (typed c n TyGraph.In_ i \/ kn c n TyGraph.In_ = Some TyGraph.Any) -> typed c n TyGraph.Out_ o ->
  holds g c m h -> hold_ty h = o ->
  exists b b1, new_arg g c n blk = Good b /\ ArgApi.supplied b (Some i) = (inl b1, []) /\ returns b1 o = Good (inl b1, []) /\
    concrete g c b1 = Good (inl (Argument m i o h)).
Proof.
  intros c n blk m i o h S I O H E.
  assert (KI : exists k, kn c n TyGraph.In_ = Some k /\ (known_of k = KnTy i \/ known_of k = KnAny)).
  { destruct (kn c n TyGraph.In_) as [k|] eqn:K; [|destruct I as [[[I|I]|I]|I]; unfold kn in *; congruence].
    exists k. split; [auto|]. destruct I as [I|I]; [left; eapply known_ty; eauto|right; apply known_any; congruence]. }
  assert (KO : exists k, kn c n TyGraph.Out_ = Some k /\ known_of k = KnTy o).
  { destruct (kn c n TyGraph.Out_) as [k|] eqn:K; [|destruct O as [[O|O]|O]; unfold kn in *; congruence]. exists k. split; [auto|]. eapply known_ty; eauto. }
  destruct KI as (ki & KI & EI). destruct KO as (ko & KO & EO). apply follow_iff in S.
  exists (Builder m (known_of ki) (known_of ko) blk), (Builder m (KnTy i) (KnTy o) blk). split; [unfold new_arg; rewrite KI, KO; cbn [expect obind]; now rewrite S|].
  split; [|split].
  - unfold ArgApi.supplied. cbn. rewrite EO. destruct EI as [-> | ->]; cbn; rewrite tkey_refl; reflexivity.
  - unfold returns. cbn. now rewrite tkey_refl.
  - unfold concrete. cbn [b_node b_in b_out]. assert (V : exists v, var_exists g c (Builder m (KnTy i) (KnTy o) blk) = Good (inl v)).
    { unfold var_exists. cbn [b_node]. destruct H as [x N|z x N|p x t N J|x t N T|x t s N F|x ss s N St]; rewrite N; try (eexists; reflexivity).
      apply get_opt_get in F. rewrite F. cbn. eexists. reflexivity. }
    destruct V as (v & ->). cbn [obind]. apply hold_of_ok in H. rewrite H. cbn [obind]. rewrite E, tkey_refl. reflexivity.
Qed.
(** What is asked for. *)
Lemma mem_in : forall t ts, TyGraph.mem tkey_eqb t ts = true <-> In t ts.
Proof.
  intros t ts. unfold TyGraph.mem. rewrite existsb_exists. split; [intros (u & I & E); apply tkey_eqb_eq in E; now subst|intros I; exists t; split; [auto|apply tkey_refl]].
Qed.
Lemma supplied_asks : forall c n blk b t r asks, new_arg g c n blk = Good b -> ArgApi.supplied b (Some t) = (r, asks) ->
  (forall a, In a asks <-> exists m ts, a = AskInput m t /\ stands g c n m /\ open c n TyGraph.In_ ts /\ In t ts) /\
  (forall e, r = inr e <-> (e = err_in_ty /\ exists u, typed c n TyGraph.In_ u /\ u <> t) \/ (e = err_in_unknown /\ exists ts, open c n TyGraph.In_ ts)).
Proof.
  intros c n blk b t r asks N S. apply new_arg_ok in N. destruct N as (i & o & m & I & O & SM & ->). unfold ArgApi.supplied in S. cbn in S.
  assert (U : forall m', stands g c n m' -> m' = m) by (intros m' Z; apply follow_iff in SM, Z; congruence).
  assert (TF : forall u v, typed c n TyGraph.In_ u -> typed c n TyGraph.In_ v -> u = v) by (intros; eapply typed_fun; eauto).
  assert (OT : forall u ts, typed c n TyGraph.In_ u -> open c n TyGraph.In_ ts -> False).
  { intros u ts A1 A2. apply (known_ty _ _ _ _ _ I) in A1. apply (known_tys _ _ _ _ _ I) in A2. congruence. }
  destruct (known_of i) as [|u|us] eqn:K; cbn in S.
  - apply known_any in K. subst i. rewrite tkey_refl in S. injection S as <- <-.
    assert (NO : forall ts, ~ open c n TyGraph.In_ ts) by (intros ts (Z & _); congruence).
    assert (NT : forall u, ~ typed c n TyGraph.In_ u) by (intros u Z; apply (known_ty _ _ _ _ _ I) in Z; discriminate).
    split; [intros a; split; [intros []|intros (m' & ts & _ & _ & Z & _); now apply NO in Z]|].
    intros e. split; [discriminate|]. intros [(_ & u & Z & _)|(_ & ts & Z)]; [now apply NT in Z|now apply NO in Z].
  - apply (known_ty _ _ _ _ _ I) in K. destruct (tkey_eqb u t) eqn:E.
    + apply tkey_eqb_eq in E. subst u. injection S as <- <-. split; [intros a; split; [intros []|intros (m' & ts & _ & _ & Z & _); destruct (OT _ _ K Z)]|].
      intros e. split; [discriminate|]. intros [(_ & u & Z & W)|(_ & ts & Z)]; [destruct W; now apply TF|destruct (OT _ _ K Z)].
    + injection S as <- <-. assert (NE : u <> t) by (intros ->; rewrite tkey_refl in E; discriminate).
      split; [intros a; split; [intros []|intros (m' & ts & _ & _ & Z & _); destruct (OT _ _ K Z)]|].
      intros e. split; [intros Z; injection Z as <-; left; eauto|]. intros [(-> & _)|(_ & ts & Z)]; [reflexivity|destruct (OT _ _ K Z)].
  - pose proof K as K0. apply (known_tys _ _ _ _ _ I) in K. injection S as <- <-. split.
    + intros a. destruct (TyGraph.mem tkey_eqb t us) eqn:M.
      * apply mem_in in M. split; [intros [<-|[]]; exists m, us; auto|]. intros (m' & ts & -> & Z & _). apply U in Z. subst m'. now left.
      * split; [intros []|]. intros (m' & ts & -> & _ & Z & J). apply (known_tys _ _ _ _ _ I) in Z. rewrite K0 in Z. injection Z as <-. apply mem_in in J. congruence.
    + intros e. split; [intros Z; injection Z as <-; right; eauto|]. intros [(_ & u & Z & _)|(-> & _)]; [destruct (OT _ _ Z K)|reflexivity].
Qed.
Lemma returns_asks : forall c n blk b t r asks, new_arg g c n blk = Good b -> returns b t = Good (r, asks) ->
  (forall a, In a asks <-> exists m ts, a = AskReturns m t /\ stands g c n m /\ open c n TyGraph.Out_ ts /\ In t ts) /\
  (forall e, r = inr e <-> (e = err_out_ty /\ exists u, typed c n TyGraph.Out_ u /\ u <> t) \/ (e = err_out_unknown /\ exists ts, open c n TyGraph.Out_ ts)).
Proof.
  intros c n blk b t r asks N S. apply new_arg_ok in N. destruct N as (i & o & m & I & O & SM & ->). unfold returns in S. cbn in S.
  assert (U : forall m', stands g c n m' -> m' = m) by (intros m' Z; apply follow_iff in SM, Z; congruence).
  assert (TF : forall u v, typed c n TyGraph.Out_ u -> typed c n TyGraph.Out_ v -> u = v) by (intros; eapply typed_fun; eauto).
  assert (OT : forall u ts, typed c n TyGraph.Out_ u -> open c n TyGraph.Out_ ts -> False).
  { intros u ts A1 A2. apply (known_ty _ _ _ _ _ O) in A1. apply (known_tys _ _ _ _ _ O) in A2. congruence. }
  destruct (known_of o) as [|u|us] eqn:K; cbn in S; [discriminate| |].
  - apply (known_ty _ _ _ _ _ O) in K. destruct (tkey_eqb u t) eqn:E.
    + apply tkey_eqb_eq in E. subst u. injection S as <- <-. split; [intros a; split; [intros []|intros (m' & ts & _ & _ & Z & _); destruct (OT _ _ K Z)]|].
      intros e. split; [discriminate|]. intros [(_ & u & Z & W)|(_ & ts & Z)]; [destruct W; now apply TF|destruct (OT _ _ K Z)].
    + injection S as <- <-. assert (NE : u <> t) by (intros ->; rewrite tkey_refl in E; discriminate).
      split; [intros a; split; [intros []|intros (m' & ts & _ & _ & Z & _); destruct (OT _ _ K Z)]|].
      intros e. split; [intros Z; injection Z as <-; left; eauto|]. intros [(-> & _)|(_ & ts & Z)]; [reflexivity|destruct (OT _ _ K Z)].
  - pose proof K as K0. apply (known_tys _ _ _ _ _ O) in K. injection S as <- <-. split.
    + intros a. destruct (TyGraph.mem tkey_eqb t us) eqn:M.
      * apply mem_in in M. split; [intros [<-|[]]; exists m, us; auto|]. intros (m' & ts & -> & Z & _). apply U in Z. subst m'. now left.
      * split; [intros []|]. intros (m' & ts & -> & _ & Z & J). apply (known_tys _ _ _ _ _ O) in Z. rewrite K0 in Z. injection Z as <-. apply mem_in in J. congruence.
    + intros e. split; [intros Z; injection Z as <-; right; eauto|]. intros [(_ & u & Z & _)|(-> & _)]; [destruct (OT _ _ Z K)|reflexivity].
Qed.
End Arg.
