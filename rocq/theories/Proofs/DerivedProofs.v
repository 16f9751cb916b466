(** The operators derived from comparisons; the greatest and the least. *)
From Coq Require Import String List ZArith NArith Bool Lia Arith.
From Verif Require Import Model.Base Model.Value Model.TableOps Model.Exec Model.Intrinsics Model.Tuple Model.Compare
  Spec.ExecSpec Spec.LogicSpec Spec.TypeSpec Spec.CompareSpec Proofs.LinkProofs Proofs.LogicProofs Proofs.SortProofs Proofs.CompareProofs.
Import ListNotations.
Set Implicit Arguments.

Section Derived.
Variable W : Type.
Local Notation hold := (hold W).
Local Notation step := (step W).
Local Notation node := (node W).

(** ** cmp and eq as ops *)
Lemma compare_arg_ok in_ty (args : list node) h :
  compare_arg in_ty args = Ok h <-> exists n, args = [n] /\ accepted in_ty in_ty n h.
Proof.
  split.
  - unfold compare_arg. destruct args as [|n [|n2 args]]; try discriminate. unfold supplied, returns.
    destruct (ty_eqb (n_in n) in_ty) eqn:E1; try discriminate. cbn [rbind].
    destruct (ty_eqb (n_out n) in_ty) eqn:E2; try discriminate. cbn [rbind]. intro H. apply concrete_ok in H.
    exists n. split; auto. repeat split; auto.
  - intros (n & -> & A1 & A2 & A3). unfold compare_arg, supplied, returns. rewrite A1. cbn [rbind]. rewrite A2. cbn [rbind].
    apply concrete_ok. exact A3.
Qed.
Lemma right_value result t rhs (s : step) v e w w1 r : t <> TNil -> right result t rhs s -> has_ty v t -> has_ty r t ->
  resolve rhs v e w = (w1, Ok r) -> invoke s v e w = (w1, Ok (result (order v r), e)).
Proof. intros N R Hv Hr H. specialize (R v e w Hv). destruct t; try congruence; apply (proj1 R); auto. Qed.
Lemma right_stops result t rhs (s : step) v e w w1 g : t <> TNil -> right result t rhs s -> has_ty v t ->
  resolve rhs v e w = (w1, halt g) -> invoke s v e w = (w1, halt g).
Proof. intros N R Hv H. specialize (R v e w Hv). destruct t; try congruence; apply (proj2 R); auto. Qed.

Lemma cmp_op in_ty (n : node) h : comparable in_ty -> accepted in_ty in_ty n h ->
  exists s, cmp_intrinsic in_ty [n] = Ok (s, TOrd) /\ right VOrd in_ty h s.
Proof.
  intros C A. destruct (cmp_right C h) as (s & E & R). exists s. split; auto. unfold cmp_intrinsic.
  rewrite (proj2 (compare_arg_ok in_ty [n] h)) by eauto. cbn [rbind]. rewrite E. reflexivity.
Qed.
Lemma eq_op in_ty (n : node) h : comparable in_ty -> accepted in_ty in_ty n h ->
  exists s, eq_intrinsic in_ty [n] = Ok (s, TBool) /\ right beq in_ty h s.
Proof.
  intros C A. destruct (eq_right C h) as (s & E & R). exists s. split; auto. unfold eq_intrinsic.
  rewrite (proj2 (compare_arg_ok in_ty [n] h)) by eauto. cbn [rbind]. rewrite E. reflexivity.
Qed.

Lemma accepted_arg in_ty t (n : node) h v e w : accepted in_ty t n h -> arg_of e n v w = resolve h v e w.
Proof. intros (_ & _ & t' & E & _). unfold arg_of. rewrite E. reflexivity. Qed.

Lemma cmp_compiled in_ty (n : node) : comparable in_ty -> (exists h, accepted in_ty in_ty n h) ->
  exists s, cmp_intrinsic in_ty [n] = Ok (s, TOrd) /\
  forall v e w, has_ty v in_ty -> in_ty <> TNil ->
    (forall w1 r, arg_of e n v w = (w1, Ok r) -> has_ty r in_ty -> invoke s v e w = (w1, Ok (VOrd (order v r), e))) /\
    (forall w1 f, arg_of e n v w = (w1, halt f) -> invoke s v e w = (w1, halt f)).
Proof.
  intros C (h & A). destruct (cmp_op C A) as (s & E & R). exists s. split; auto. intros v e w Hv N.
  rewrite (accepted_arg v e w A). split; [intros w1 r Hr Tr|intros w1 f Hr].
  - eapply right_value; eauto.
  - eapply right_stops; eauto.
Qed.
Lemma eq_compiled in_ty (n : node) : comparable in_ty -> (exists h, accepted in_ty in_ty n h) ->
  exists s, eq_intrinsic in_ty [n] = Ok (s, TBool) /\
  forall v e w, has_ty v in_ty -> in_ty <> TNil ->
    (forall w1 r, arg_of e n v w = (w1, Ok r) -> has_ty r in_ty ->
       exists b, invoke s v e w = (w1, Ok (VBool b, e)) /\ (b = true <-> v = r)) /\
    (forall w1 f, arg_of e n v w = (w1, halt f) -> invoke s v e w = (w1, halt f)).
Proof.
  intros C (h & A). destruct (eq_op C A) as (s & E & R). exists s. split; auto. intros v e w Hv N.
  rewrite (accepted_arg v e w A). split; [intros w1 r Hr Tr|intros w1 f Hr].
  - eexists. split; [exact (@right_value beq in_ty h s v e w w1 r N R Hv Tr Hr)|]. destruct (order_is_order C) as (O & _). specialize (O v r Hv Tr).
    destruct (order v r); rewrite <- O; split; congruence.
  - eapply right_stops; eauto.
Qed.
Lemma nil_compiled (n : node) : (exists h, accepted TNil TNil n h) ->
  exists s s', cmp_intrinsic TNil [n] = Ok (s, TOrd) /\ eq_intrinsic TNil [n] = Ok (s', TBool) /\
  forall e w, invoke s VNil e w = (w, Ok (VOrd Eq, e)) /\ invoke s' VNil e w = (w, Ok (VBool true, e)).
Proof.
  intros (h & A). destruct (cmp_op comparable_nil A) as (s & E & R), (eq_op comparable_nil A) as (s' & E' & R').
  exists s, s'. split; auto. split; auto. intros e w. split; [apply (R VNil e w has_nil)|apply (R' VNil e w has_nil)].
Qed.
Lemma compare_rejects in_ty (args : list node) :
  (forall s t, cmp_intrinsic in_ty args = Ok (s, t) \/ eq_intrinsic in_ty args = Ok (s, t) ->
     (exists n h, args = [n] /\ accepted in_ty in_ty n h) /\ in_ty <> TTab /\ in_ty <> TTabRow /\
     forall d, in_ty = TDef d -> is_ord d = true \/ is_tuple d = true).
Proof.
  intros s t H. split.
  - assert (E : exists h, compare_arg in_ty args = Ok h).
    { unfold cmp_intrinsic, eq_intrinsic in H. destruct (compare_arg in_ty args) as [h| |]; eauto; destruct H; discriminate. }
    destruct E as (h & E). apply compare_arg_ok in E. destruct E as (n & -> & A). eauto.
  - assert (E : exists h : hold, cmp_step in_ty h <> Err 7 \/ eq_step in_ty h <> Err 7).
    { unfold cmp_intrinsic, eq_intrinsic in H. destruct (compare_arg in_ty args) as [h| |]; cbn [rbind] in H; [|destruct H; discriminate..].
      exists h. destruct H as [H|H]; [left|right]; intro X; rewrite X in H; discriminate. }
    destruct E as (h & E). repeat split; [intros ->; destruct E as [E|E]; apply E; reflexivity..|].
    intros d ->. destruct (is_ord d) eqn:I1; auto. destruct (is_tuple d) eqn:I2; auto.
    exfalso. cbn [cmp_step eq_step] in E. rewrite I1, I2 in E. destruct E as [E|E]; apply E; reflexivity.
Qed.

(** ** Derived operators *)
Definition agree (ks : list nat) (e e' : env) : Prop :=
  length e' = length e /\ forall i, ~ In i ks -> nth_error e' i = nth_error e i.
Lemma agree_refl ks e : agree ks e e.
Proof. split; auto. Qed.
Lemma agree_trans ks a b c : agree ks a b -> agree ks b c -> agree ks a c.
Proof. intros [L1 A1] [L2 A2]. split; [congruence|]. intros i Hi. rewrite A2, A1; auto. Qed.
Lemma agree_put ks e k v e' : In k ks -> put k v e = Some e' -> k < length e -> agree ks e e'.
Proof.
  intros Hk E L. destruct (put_at e v L) as (e2 & E2 & L2 & _ & O). rewrite E in E2. injection E2 as <-.
  split; auto. intros i Hi. apply O. intros ->. contradiction.
Qed.
Lemma put_nth e k v e' : put k v e = Some e' -> nth_error e' k = Some v.
Proof.
  revert k e'. induction e as [|x e IH]; intros [|k] e' H; cbn in H; try discriminate.
  - injection H as <-. reflexivity.
  - destruct (put k v e) eqn:E; try discriminate. injection H as <-. cbn. eauto.
Qed.
Lemma call1_stops k (rhs : hold) body v e w w1 g : resolve rhs v e w = (w1, halt g) ->
  invoke (Def [(Some k, rhs)] body) v e w = (w1, halt g).
Proof. intro H. rewrite invoke_def. cbn [map fst snd bind_params]. unfold bind. rewrite H. destruct g; reflexivity. Qed.

Lemma run_first result t k (s : step) v e w (r : value) :
  right result t (HVar k) s -> has_ty v t -> has_ty r t -> nth_error e k = Some r ->
  invoke s v e w = (w, Ok (result (order v r), e)).
Proof. intros R Hv Hr N. apply (right_gives R Hv Hr). apply gives_var. exact N. Qed.

Lemma run_op_eq t k (rhs : hold) : comparable t -> exists s, op_eq t k rhs = Ok s /\
  (forall v e w w1 r, has_ty v t -> has_ty r t -> k < length e -> resolve rhs v e w = (w1, Ok r) ->
    exists e', invoke s v e w = (w1, Ok (VBool (truth OpEq (order v r)), e')) /\ agree [k] e e') /\
  (forall v e w w1 g, resolve rhs v e w = (w1, halt g) -> invoke s v e w = (w1, halt g)).
Proof.
  intro C. destruct (eq_right C (@HVar W k)) as (s & E & R). unfold op_eq. rewrite E. cbn [rbind]. eexists. split; [reflexivity|]. split.
  - intros v e w w1 r Hv Hr L H. destruct (@invoke_call1 W k rhs [s] v e w w1 r L H) as (e' & Ep & ->).
    exists e'. split; [|eapply agree_put; eauto; left; reflexivity]. rewrite eval_one.
    rewrite (run_first _ w1 R Hv Hr) by (eapply put_nth; eauto). destruct (order v r); reflexivity.
  - intros v e w w1 g H. apply call1_stops. exact H.
Qed.
Lemma eq_ord_is t c : order (VOrd t) (VOrd c) = Eq <-> t = c.
Proof. rewrite order_ord. destruct t, c; cbn; split; congruence. Qed.

Lemma run_op_ne t k (rhs : hold) : comparable t -> exists s, op_ne t k rhs = Ok s /\
  (forall v e w w1 r, has_ty v t -> has_ty r t -> k < length e -> resolve rhs v e w = (w1, Ok r) ->
    exists e', invoke s v e w = (w1, Ok (VBool (truth OpNe (order v r)), e')) /\ agree [k] e e') /\
  (forall v e w w1 g, resolve rhs v e w = (w1, halt g) -> invoke s v e w = (w1, halt g)).
Proof.
  intro C. destruct (eq_right C (@HVar W k)) as (s & E & R). unfold op_ne. rewrite E. cbn [rbind]. eexists. split; [reflexivity|]. split.
  - intros v e w w1 r Hv Hr L H. destruct (@invoke_call1 W k rhs [s; not_step W] v e w w1 r L H) as (e' & Ep & ->).
    exists e'. split; [|eapply agree_put; eauto; left; reflexivity]. rewrite eval_two. unfold bind.
    rewrite (run_first _ w1 R Hv Hr) by (eapply put_nth; eauto). cbn [fst snd]. unfold not_step. rewrite invoke_op.
    destruct (order v r); reflexivity.
  - intros v e w w1 g H. apply call1_stops. exact H.
Qed.

(** [= Ord::c] on an ordering *)
Lemma run_is_ord c j : exists q, op_eq TOrd j (ord_arg W c) = Ok q /\
  forall o e w, j < length e -> exists e', invoke q (VOrd o) e w = (w, Ok (VBool (match order (VOrd o) (VOrd c) with Eq => true | _ => false end), e')) /\ agree [j] e e'.
Proof.
  destruct (run_op_eq j (ord_arg W c) comparable_ord) as (q & E & R & _). exists q. split; auto. intros o e w L.
  destruct (R (VOrd o) e w w (VOrd c)) as (e' & X & A); auto; try (apply has_ord; eauto).
  exists e'. split; [|exact A]. rewrite X. unfold truth. destruct (order (VOrd o) (VOrd c)); reflexivity.
Qed.

Lemma run_op_is c t k j (rhs : hold) : comparable t -> exists s, op_is c t k j rhs = Ok s /\
  (forall v e w w1 r, has_ty v t -> has_ty r t -> k < length e -> j < length e -> resolve rhs v e w = (w1, Ok r) ->
    exists e', invoke s v e w = (w1, Ok (VBool (match order (VOrd (order v r)) (VOrd c) with Eq => true | _ => false end), e')) /\ agree [k; j] e e') /\
  (forall v e w w1 g, resolve rhs v e w = (w1, halt g) -> invoke s v e w = (w1, halt g)).
Proof.
  intro C. destruct (cmp_right C (@HVar W k)) as (s & E & R). destruct (run_is_ord c j) as (q & Eq & Q).
  unfold op_is. rewrite E. cbn [rbind]. rewrite Eq. cbn [rbind]. eexists. split; [reflexivity|]. split.
  - intros v e w w1 r Hv Hr L Lj H. destruct (@invoke_call1 W k rhs [s; q] v e w w1 r L H) as (e1 & Ep & ->).
    assert (A1 : agree [k; j] e e1) by (eapply agree_put; eauto; left; reflexivity).
    rewrite eval_two. unfold bind. rewrite (run_first _ w1 R Hv Hr) by (eapply put_nth; eauto). cbn [fst snd].
    destruct (Q (order v r) e1 w1) as (e2 & X & A2); [destruct A1; lia|]. exists e2. split; [exact X|].
    eapply agree_trans; [exact A1|]. destruct A2 as [L2 A2]. split; auto. intros i Hi. apply A2. intro Y. apply Hi. right. exact Y.
  - intros v e w w1 g H. apply call1_stops. exact H.
Qed.

Lemma gives_call q v e b : (forall w : W, exists e', invoke q v e w = (w, Ok (VBool b, e'))) -> gives (HExpr [q]) v e (VBool b).
Proof. intros H w. rewrite resolve_expr. unfold bind. rewrite eval_one. destruct (H w) as (e' & ->). reflexivity. Qed.

Lemma run_or2 (h1 h2 : hold) b1 b2 v e w : gives h1 v e (VBool b1) -> gives h2 v e (VBool b2) ->
  invoke (or_step [h1; h2]) v e w = (w, Ok (VBool (b1 || b2), e)).
Proof.
  intros G1 G2. unfold or_step, agnostic_step. rewrite invoke_op. cbn [run_act map nth_error length pred].
  unfold bind. rewrite (G1 w). cbn [as_bool try agg_loop run_act nth_error map]. unfold bind. rewrite (G2 w). cbn [as_bool try].
  unfold or_agg. destruct (b1 || b2); reflexivity.
Qed.

Lemma run_op_or c t k j j' (rhs : hold) : comparable t -> exists s, op_or c t k j j' rhs = Ok s /\
  (forall v e w w1 r, has_ty v t -> has_ty r t -> k < length e -> j < length e -> j' < length e -> resolve rhs v e w = (w1, Ok r) ->
    exists e', invoke s v e w = (w1, Ok (VBool (match order (VOrd (order v r)) (VOrd c) with Eq => true | _ => false end ||
                                             match order v r with Eq => true | _ => false end), e')) /\ agree [k] e e') /\
  (forall v e w w1 g, resolve rhs v e w = (w1, halt g) -> invoke s v e w = (w1, halt g)).
Proof.
  intro C. destruct (cmp_right C (@HVar W k)) as (s & E & R). destruct (run_is_ord c j) as (q & Eq1 & Q), (run_is_ord Eq j') as (q' & Eq2 & Q').
  unfold op_or. rewrite E. cbn [rbind]. rewrite Eq1. cbn [rbind]. rewrite Eq2. cbn [rbind]. eexists. split; [reflexivity|]. split.
  - intros v e w w1 r Hv Hr L Lj Lj' H.
    destruct (@invoke_call1 W k rhs [s; or_step [HExpr [q]; HExpr [q']]] v e w w1 r L H) as (e1 & Ep & ->).
    assert (A1 : agree [k] e e1) by (eapply agree_put; eauto; left; reflexivity).
    exists e1. split; [|exact A1].
    rewrite eval_two. unfold bind. rewrite (run_first _ w1 R Hv Hr) by (eapply put_nth; eauto). cbn [fst snd].
    destruct A1 as [L1 _]. rewrite (@run_or2 (HExpr [q]) (HExpr [q']) (match order (VOrd (order v r)) (VOrd c) with Eq => true | _ => false end)
      (match order (VOrd (order v r)) (VOrd Eq) with Eq => true | _ => false end)).
    + rewrite !order_ord. destruct (order v r); reflexivity.
    + apply gives_call. intro w2. destruct (Q (order v r) e1 w2) as (e2 & X & _); [lia|]. eauto.
    + apply gives_call. intro w2. destruct (Q' (order v r) e1 w2) as (e2 & X & _); [lia|]. eauto.
  - intros v e w w1 g H. apply call1_stops. exact H.
Qed.

Lemma agree_sub ks ks' e e' : (forall i, In i ks -> In i ks') -> agree ks e e' -> agree ks' e e'.
Proof. intros S [L A]. split; auto. Qed.

Lemma derived_run op t k j j' (rhs : hold) : comparable t -> exists s, op_step op t k j j' rhs = Ok s /\
  (forall v e w w1 r, has_ty v t -> has_ty r t -> k < length e -> j < length e -> j' < length e -> resolve rhs v e w = (w1, Ok r) ->
    exists e', invoke s v e w = (w1, Ok (VBool (truth op (order v r)), e')) /\ length e' = length e /\
      forall i, i <> k -> i <> j -> i <> j' -> nth_error e' i = nth_error e i) /\
  (forall v e w w1 g, resolve rhs v e w = (w1, halt g) -> invoke s v e w = (w1, halt g)).
Proof.
  intro C.
  assert (K : forall ks e e', (forall i, In i ks -> In i [k; j; j']) -> agree ks e e' ->
            length e' = length e /\ forall i, i <> k -> i <> j -> i <> j' -> nth_error e' i = nth_error e i).
  { intros ks e e' S [L A]. split; auto. intros i N1 N2 N3. apply A. intro X. apply S in X. cbn in X. intuition congruence. }
  destruct op; cbn [op_step].
  - destruct (run_op_eq k rhs C) as (s & E & R & St). exists s. split; auto. split; auto. intros v e w w1 r Hv Hr L1 L2 L3 H.
    destruct (R v e w w1 r Hv Hr L1 H) as (e' & X & A). exists e'. split; auto. eapply K; [|exact A]. cbn. tauto.
  - destruct (run_op_ne k rhs C) as (s & E & R & St). exists s. split; auto. split; auto. intros v e w w1 r Hv Hr L1 L2 L3 H.
    destruct (R v e w w1 r Hv Hr L1 H) as (e' & X & A). exists e'. split; auto. eapply K; [|exact A]. cbn. tauto.
  - destruct (run_op_is Lt k j rhs C) as (s & E & R & St). exists s. split; auto. split; auto. intros v e w w1 r Hv Hr L1 L2 L3 H.
    destruct (R v e w w1 r Hv Hr L1 L2 H) as (e' & X & A). exists e'. split; [|eapply K; [|exact A]; cbn; tauto].
    rewrite X, order_ord. destruct (order v r); reflexivity.
  - destruct (run_op_or Lt k j j' rhs C) as (s & E & R & St). exists s. split; auto. split; auto. intros v e w w1 r Hv Hr L1 L2 L3 H.
    destruct (R v e w w1 r Hv Hr L1 L2 L3 H) as (e' & X & A). exists e'. split; [|eapply K; [|exact A]; cbn; tauto].
    rewrite X, order_ord. destruct (order v r); reflexivity.
  - destruct (run_op_is Gt k j rhs C) as (s & E & R & St). exists s. split; auto. split; auto. intros v e w w1 r Hv Hr L1 L2 L3 H.
    destruct (R v e w w1 r Hv Hr L1 L2 H) as (e' & X & A). exists e'. split; [|eapply K; [|exact A]; cbn; tauto].
    rewrite X, order_ord. destruct (order v r); reflexivity.
  - destruct (run_op_or Gt k j j' rhs C) as (s & E & R & St). exists s. split; auto. split; auto. intros v e w w1 r Hv Hr L1 L2 L3 H.
    destruct (R v e w w1 r Hv Hr L1 L2 L3 H) as (e' & X & A). exists e'. split; [|eapply K; [|exact A]; cbn; tauto].
    rewrite X, order_ord. destruct (order v r); reflexivity.
Qed.

(** ** Variadic ops on the type of the input that never leave early *)
Section Fold.
  Variables (T : Type) (t : ty) (from : value -> res T) (to : T -> value) (f : T -> T -> T).
  Hypothesis from_to : forall x a, from x = Ok a <-> x = to a.
  Definition agg_of (a b : T) : T * bool := (f a b, false).

  Lemma constrained_compiles in_ty (args : list node) o :
    (exists s, variadic_constrained t from to agg_of in_ty args = Ok (s, o)) <->
    ty_eqb in_ty t = true /\ args <> [] /\ o = t /\ forall n, In n args -> exists h, accepted in_ty t n h.
  Proof.
    unfold variadic_constrained, assert_input. split.
    - intros [s H]. destruct (ty_eqb in_ty t); [|discriminate]. cbn [rbind] in H. destruct args as [|n args]; [discriminate|].
      destruct (all_return in_ty t (n :: args)) as [hs| |] eqn:E; try discriminate. cbn [rbind] in H. injection H as _ <-.
      split; auto. split; [discriminate|]. split; auto. apply all_return_iff. eauto.
    - intros (-> & N & -> & H). cbn [rbind]. destruct args as [|n args]; [congruence|]. apply all_return_iff in H. destruct H as [hs ->].
      cbn [rbind]. eauto.
  Qed.
  Lemma constrained_eq in_ty (args : list node) s o v e w : variadic_constrained t from to agg_of in_ty args = Ok (s, o) ->
    invoke s v e w = match from v with
                     | Ok a => final to e (loopf from agg_of v (map (arg_of e) args) a w)
                     | Err n => (w, Err n) | Panic => (w, Panic)
                     end.
  Proof.
    unfold variadic_constrained, assert_input. destruct (ty_eqb in_ty t); [|discriminate]. cbn [rbind].
    destruct args as [|n args]; [discriminate|].
    destruct (all_return in_ty t (n :: args)) as [hs| |] eqn:E; try discriminate. cbn [rbind]. intro H. injection H as <- _.
    rewrite invoke_op. destruct (from v) as [a| |]; try reflexivity. cbn [try].
    destruct (all_return_of _ _ _ e E) as [<- _].
    assert (X := loop_eq from to agg_of v e hs [] a w). cbn [length app] in X. exact X.
  Qed.
  Lemma fold_value v (ds : list (compu W)) : forall a w w' b, loopf from agg_of v ds a w = (w', Ok b) <->
    exists xs, each v ds w (map to xs) w' /\ b = fold_left f xs a.
  Proof.
    induction ds as [|d ds IH]; intros a w w' b; cbn [loopf].
    - split.
      + intro H. injection H as <- <-. exists []. split; [constructor|reflexivity].
      + intros (xs & H & ->). destruct xs; inversion H; subst. reflexivity.
    - split.
      + destruct (d v w) as [w1 [x| |]] eqn:Ed; try discriminate. destruct (from x) as [y| |] eqn:Ef; try discriminate.
        cbn [agg_of]. unfold agg_of at 1. intro H. apply IH in H. destruct H as (xs & H & ->). apply from_to in Ef. subst x.
        exists (y :: xs). split; [|reflexivity]. cbn. econstructor; eauto.
      + intros (xs & H & ->). destruct xs as [|y xs]; [inversion H|]. cbn [map] in H. inversion H as [|? ? ? ? w1 ? ? Hd He]; subst.
        rewrite Hd. rewrite (proj2 (from_to (to y) y) eq_refl). unfold agg_of at 1. apply IH. eauto.
  Qed.
  Lemma fold_stops v (ds : list (compu W)) : forall a w w' g, loopf from agg_of v ds a w = (w', halt g) <->
    exists ds1 d ds2 xs w1, ds = ds1 ++ d :: ds2 /\ each v ds1 w (map to xs) w1 /\
      (d v w1 = (w', halt g) \/ exists x, d v w1 = (w', Ok x) /\ from x = halt g).
  Proof.
    induction ds as [|d ds IH]; intros a w w' g; cbn [loopf].
    - split; [intro H; destruct g; discriminate|]. intros ([|] & ? & ? & ? & ? & H & _); discriminate.
    - split.
      + destruct (d v w) as [w1 [x| |]] eqn:Ed; [destruct (from x) as [y| |] eqn:Ef| |].
        * unfold agg_of at 1. intro H. apply IH in H. destruct H as (ds1 & d' & ds2 & xs & w2 & -> & He & H). apply from_to in Ef. subst x.
          exists (d :: ds1), d', ds2, (y :: xs), w2. split; auto. split; auto. cbn. econstructor; eauto.
        * intro H. exists [], d, ds, [], w. split; auto. split; [constructor|]. right. exists x. rewrite Ed, Ef. destruct g; inversion H; auto.
        * intro H. exists [], d, ds, [], w. split; auto. split; [constructor|]. right. exists x. rewrite Ed, Ef. destruct g; inversion H; auto.
        * intro H. exists [], d, ds, [], w. split; auto. split; [constructor|]. left. rewrite Ed. destruct g; inversion H; auto.
        * intro H. exists [], d, ds, [], w. split; auto. split; [constructor|]. left. rewrite Ed. destruct g; inversion H; auto.
      + intros (ds1 & d' & ds2 & xs & w1 & E & He & H). destruct ds1 as [|d1 ds1]; injection E as <- ->.
        * inversion He; subst. destruct H as [->|(x & -> & Ef)]; [destruct g; reflexivity|]. rewrite Ef. destruct g; reflexivity.
        * destruct xs as [|y xs]; [inversion He|]. cbn [map] in He. inversion He as [|? ? ? ? w2 ? ? Hd He2]; subst.
          rewrite Hd. rewrite (proj2 (from_to (to y) y) eq_refl). unfold agg_of at 1. apply IH. eauto 9.
  Qed.
End Fold.

Lemma as_num_to x a : as_num x = Ok a <-> x = VNum a.
Proof. destruct x; cbn; split; congruence. Qed.

Lemma fold_max xs : forall a m, m = fold_left Z.max xs a <-> greatest m (a :: xs).
Proof.
  assert (G : forall xs a, greatest (fold_left Z.max xs a) (a :: xs)).
  { clear. induction xs as [|x xs IH]; intro a; cbn [fold_left].
    - split; [left; auto|]. intros y [->|[]]. lia.
    - destruct (IH (Z.max a x)) as [I M]. split.
      + destruct I as [I|I]; [|right; right; exact I]. rewrite <- I. destruct (Z.max_spec a x) as [[_ ->]|[_ ->]]; cbn; auto.
      + intros y Hy. assert (M0 := M (Z.max a x) (or_introl eq_refl)). destruct Hy as [<-|[<-|Hy]]; [lia|lia|]. apply M. right. exact Hy. }
  intros a m. split; [intros ->; apply G|]. intros [I M]. destruct (G xs a) as [I' M']. specialize (M _ I'). specialize (M' _ I). lia.
Qed.
Lemma fold_min xs : forall a m, m = fold_left Z.min xs a <-> least m (a :: xs).
Proof.
  assert (G : forall xs a, least (fold_left Z.min xs a) (a :: xs)).
  { clear. induction xs as [|x xs IH]; intro a; cbn [fold_left].
    - split; [left; auto|]. intros y [->|[]]. lia.
    - destruct (IH (Z.min a x)) as [I M]. split.
      + destruct I as [I|I]; [|right; right; exact I]. rewrite <- I. destruct (Z.min_spec a x) as [[_ ->]|[_ ->]]; cbn; auto.
      + intros y Hy. assert (M0 := M (Z.min a x) (or_introl eq_refl)). destruct Hy as [<-|[<-|Hy]]; [lia|lia|]. apply M. right. exact Hy. }
  intros a m. split; [intros ->; apply G|]. intros [I M]. destruct (G xs a) as [I' M']. specialize (M _ I'). specialize (M' _ I). lia.
Qed.

Lemma num_fold_value f in_ty (args : list node) s t n e w w' u e' :
  variadic_constrained TNum as_num VNum (agg_of f) in_ty args = Ok (s, t) ->
  (invoke s (VNum n) e w = (w', Ok (u, e')) <->
   e' = e /\ exists ns, each (VNum n) (map (arg_of e) args) w (map VNum ns) w' /\ u = VNum (fold_left f ns n)).
Proof.
  intro H. rewrite (@constrained_eq _ TNum as_num VNum f in_ty args s t (VNum n) e w H). cbn [as_num].
  destruct (loopf as_num (agg_of f) (VNum n) (map (arg_of e) args) n w) as [w1 [b|k|]] eqn:E; cbn [final].
  - split.
    + intro X. injection X as <- <- <-. apply (@fold_value _ as_num VNum f as_num_to) in E. destruct E as (ns & E & ->). eauto.
    + intros (-> & ns & He & ->). assert (X := proj2 (@fold_value _ as_num VNum f as_num_to (VNum n) (map (arg_of e) args) n w w' (fold_left f ns n))).
      rewrite X in E by eauto. injection E as <- <-. reflexivity.
  - split; [discriminate|]. intros (-> & ns & He & ->). assert (X := proj2 (@fold_value _ as_num VNum f as_num_to (VNum n) (map (arg_of e) args) n w w' (fold_left f ns n))).
    rewrite X in E by eauto. discriminate.
  - split; [discriminate|]. intros (-> & ns & He & ->). assert (X := proj2 (@fold_value _ as_num VNum f as_num_to (VNum n) (map (arg_of e) args) n w w' (fold_left f ns n))).
    rewrite X in E by eauto. discriminate.
Qed.
Lemma num_fold_stops f in_ty (args : list node) s t n e w w' g :
  variadic_constrained TNum as_num VNum (agg_of f) in_ty args = Ok (s, t) ->
  (invoke s (VNum n) e w = (w', halt g) <->
   exists args1 x args2 ns w1, args = args1 ++ x :: args2 /\ each (VNum n) (map (arg_of e) args1) w (map VNum ns) w1 /\
     (arg_of e x (VNum n) w1 = (w', halt g) \/ exists y, arg_of e x (VNum n) w1 = (w', Ok y) /\ ty_of y <> TNum /\ g = Some 1)).
Proof.
  intro H. rewrite (@constrained_eq _ TNum as_num VNum f in_ty args s t (VNum n) e w H). cbn [as_num].
  assert (X : final VNum e (loopf as_num (agg_of f) (VNum n) (map (arg_of e) args) n w) = (w', halt g) <->
              loopf as_num (agg_of f) (VNum n) (map (arg_of e) args) n w = (w', halt g)).
  { destruct (loopf as_num (agg_of f) (VNum n) (map (arg_of e) args) n w) as [w1 [b|k|]]; cbn [final]; destruct g; split; intro Y; inversion Y; auto. }
  rewrite X. rewrite (@fold_stops _ as_num VNum f as_num_to). split.
  - intros (ds1 & d & ds2 & xs & w1 & E & He & Hd).
    apply map_eq_app in E. destruct E as (a1 & a2 & -> & <- & E). apply map_eq_cons in E. destruct E as (x & a3 & -> & <- & <-).
    exists a1, x, a3, xs, w1. split; auto. split; auto. destruct Hd as [Hd|(y & Hd & Hf)]; auto. right. exists y. split; auto.
    destruct y; cbn in Hf; destruct g; try discriminate; injection Hf as <-; split; auto; discriminate.
  - intros (a1 & x & a2 & ns & w1 & -> & He & Hd). rewrite map_app. cbn [map].
    exists (map (arg_of e) a1), (arg_of e x), (map (arg_of e) a2), ns, w1. split; auto. split; auto.
    destruct Hd as [Hd|(y & Hd & Ty & ->)]; auto. right. exists y. split; auto. destruct y; cbn in *; auto; congruence.
Qed.

Lemma max_value in_ty t (args : list node) s n e w w' u e' : max_intrinsic in_ty args = Ok (s, t) ->
  (invoke s (VNum n) e w = (w', Ok (u, e')) <->
   e' = e /\ exists ns m, each (VNum n) (map (arg_of e) args) w (map VNum ns) w' /\ u = VNum m /\ greatest m (n :: ns)).
Proof.
  intro H. rewrite (@num_fold_value Z.max in_ty args s t n e w w' u e' H). split; (intros (-> & ns & X); split; auto).
  - destruct X as (X & ->). exists ns, (fold_left Z.max ns n). split; auto. split; auto. apply fold_max. reflexivity.
  - destruct X as (m & X & -> & G). exists ns. split; auto. f_equal. apply fold_max. exact G.
Qed.
Lemma min_value in_ty t (args : list node) s n e w w' u e' : min_intrinsic in_ty args = Ok (s, t) ->
  (invoke s (VNum n) e w = (w', Ok (u, e')) <->
   e' = e /\ exists ns m, each (VNum n) (map (arg_of e) args) w (map VNum ns) w' /\ u = VNum m /\ least m (n :: ns)).
Proof.
  intro H. rewrite (@num_fold_value Z.min in_ty args s t n e w w' u e' H). split; (intros (-> & ns & X); split; auto).
  - destruct X as (X & ->). exists ns, (fold_left Z.min ns n). split; auto. split; auto. apply fold_min. reflexivity.
  - destruct X as (m & X & -> & G). exists ns. split; auto. f_equal. apply fold_min. exact G.
Qed.
Lemma max_min_stops in_ty t (args : list node) s n e w w' f :
  max_intrinsic in_ty args = Ok (s, t) \/ min_intrinsic in_ty args = Ok (s, t) ->
  (invoke s (VNum n) e w = (w', halt f) <->
   exists args1 x args2 ns w1, args = args1 ++ x :: args2 /\ each (VNum n) (map (arg_of e) args1) w (map VNum ns) w1 /\
     (arg_of e x (VNum n) w1 = (w', halt f) \/
      exists y, arg_of e x (VNum n) w1 = (w', Ok y) /\ ty_of y <> TNum /\ f = Some 1)).
Proof.
  intros [H|H]; [exact (@num_fold_stops Z.max in_ty args s t n e w w' f H)|exact (@num_fold_stops Z.min in_ty args s t n e w w' f H)].
Qed.

(** ** Tuples *)
Lemma lexicographic ts xs ys : Forall comparable ts -> have_tys xs ts -> have_tys ys ts ->
  (order (VOgma (tuple_ty ts) 0 xs) (VOgma (tuple_ty ts) 0 ys) = Lt <->
   exists k x y, firstn k xs = firstn k ys /\ nth_error xs k = Some x /\ nth_error ys k = Some y /\ order x y = Lt).
Proof.
  rewrite order_tuple. intros C Hx. revert ys C. induction Hx as [|x t xs ts Tx Hx IH]; intros ys C Hy; inversion Hy as [|y ? ys' ? Ty Hys]; subst.
  - cbn. split; [discriminate|]. intros (k & x & y & _ & H & _). destruct k; discriminate.
  - inversion C as [|? ? C1 C2]; subst. specialize (IH ys' C2 Hys). destruct (order_is_order C1) as (E & _). specialize (E x y Tx Ty).
    change (first_diff (x :: xs) (y :: ys')) with (match order x y with Eq => first_diff xs ys' | o => o end).
    destruct (order x y) eqn:O.
    + rewrite IH. assert (x = y) by (apply E; reflexivity). subst y. split.
      * intros (k & a & b & F & Ha & Hb & L). exists (S k), a, b. cbn. rewrite F. auto.
      * intros ([|k] & a & b & F & Ha & Hb & L); cbn in *; [congruence|]. injection F as F. exists k, a, b. auto.
    + split; [|reflexivity]. intros _. exists 0, x, y. auto.
    + split; [discriminate|]. intros ([|k] & a & b & F & Ha & Hb & L); cbn in *; [congruence|]. injection F as F1 F2.
      apply E in F1. discriminate.
Qed.

Lemma trichotomy t k j j' (rhs : hold) sl se sg v e w wl we wg bl be bg el ee eg :
  comparable t -> has_ty v t -> k < length e -> j < length e -> j' < length e ->
  (forall w1 r, resolve rhs v e w = (w1, Ok r) -> has_ty r t) ->
  op_step OpLt t k j j' rhs = Ok sl -> op_step OpEq t k j j' rhs = Ok se -> op_step OpGt t k j j' rhs = Ok sg ->
  invoke sl v e w = (wl, Ok (VBool bl, el)) -> invoke se v e w = (we, Ok (VBool be, ee)) -> invoke sg v e w = (wg, Ok (VBool bg, eg)) ->
  (bl, be, bg) = (true, false, false) \/ (bl, be, bg) = (false, true, false) \/ (bl, be, bg) = (false, false, true).
Proof.
  intros C Hv L1 L2 L3 Hr El Ee Eg Rl Re Rg.
  destruct (derived_run OpLt k j j' rhs C) as (s1 & E1 & R1 & St1). rewrite El in E1. injection E1 as <-.
  destruct (derived_run OpEq k j j' rhs C) as (s2 & E2 & R2 & St2). rewrite Ee in E2. injection E2 as <-.
  destruct (derived_run OpGt k j j' rhs C) as (s3 & E3 & R3 & St3). rewrite Eg in E3. injection E3 as <-.
  destruct (resolve rhs v e w) as [w1 [r|n|]] eqn:E.
  - specialize (Hr _ _ eq_refl).
    destruct (R1 _ _ _ _ _ Hv Hr L1 L2 L3 E) as (e1 & X1 & _), (R2 _ _ _ _ _ Hv Hr L1 L2 L3 E) as (e2 & X2 & _), (R3 _ _ _ _ _ Hv Hr L1 L2 L3 E) as (e3 & X3 & _).
    rewrite X1 in Rl. rewrite X2 in Re. rewrite X3 in Rg. injection Rl as <- <- <-. injection Re as <- <- <-. injection Rg as <- <- <-.
    destruct (order v r); cbn; auto.
  - assert (X := St1 v e w w1 (Some n) E). rewrite X in Rl. discriminate.
  - assert (X := St1 v e w w1 None E). rewrite X in Rl. discriminate.
Qed.

End Derived.
