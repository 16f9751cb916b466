From Coq Require Import List Bool Arith Lia.
From Verif Require Import Model.Base Model.TyGraph Spec.TyGraphSpec.
Import ListNotations.

Section proofs.
Variables (T : Type) (eqb : T -> T -> bool).
Hypothesis eqb_eq : forall a b, eqb a b = true <-> a = b.
Implicit Types (g : tgraph T) (k : kn T).

Lemma eqb_rfl : forall a, eqb a a = true.
Proof. intros. apply eqb_eq. reflexivity. Qed.

Lemma mem_in : forall t l, mem eqb t l = true <-> In t l.
Proof.
  intros t l. unfold mem. rewrite existsb_exists. split.
  - intros (x & I & E). apply eqb_eq in E. subst. auto.
  - intros I. exists t. split; auto. apply eqb_rfl.
Qed.
Lemma mem_not : forall t l, mem eqb t l = false <-> ~ In t l.
Proof. intros. rewrite <- mem_in. destruct (mem eqb t l); intuition congruence. Qed.

Lemma set_eqb_incl : forall a b, set_eqb eqb a b = true -> incl a b.
Proof.
  intros a b H t I. unfold set_eqb, subset in H. apply andb_true_iff in H. destruct H as [_ H].
  rewrite forallb_forall in H. apply mem_in. auto.
Qed.
Lemma set_eqb_same : forall a b, NoDup a -> set_eqb eqb a b = true -> forall t, In t a <-> In t b.
Proof.
  intros a b ND H t. split. apply set_eqb_incl; auto.
  pose proof (set_eqb_incl a b H) as IN. unfold set_eqb in H. apply andb_true_iff in H. destruct H as [L _].
  apply Nat.eqb_eq in L. revert t. apply NoDup_length_incl; auto. lia.
Qed.
Lemma set_eqb_refl : forall a, set_eqb eqb a a = true.
Proof.
  intros a. unfold set_eqb, subset. rewrite Nat.eqb_refl. apply forallb_forall. intros x I. apply mem_in. auto.
Qed.

(** ** updates *)
Lemma upd_length : forall A (l : list A) i f, length (upd l i f) = length l.
Proof. induction l as [|x l IH]; intros [|i] f; cbn; auto. Qed.
Lemma upd_nth : forall A (l : list A) i f j, nth_error (upd l i f) j = if i =? j then option_map f (nth_error l j) else nth_error l j.
Proof.
  induction l as [|x l IH]; intros [|i] f [|j]; cbn; auto.
  destruct (i =? j); reflexivity.
Qed.

Definition slot_eq_dec : forall a b : slot, {a = b} + {a <> b}.
Proof. intros. decide equality. decide equality. apply Nat.eq_dec. Defined.

Lemma kn_at_put_same : forall g s k, kn_at g s <> None -> kn_at (put g s k) s = Some k.
Proof.
  intros g [n s] k H. unfold kn_at, put in *. cbn in *. rewrite upd_nth, Nat.eqb_refl.
  destruct (nth_error (nodes g) n); [|congruence]. cbn. destruct s; reflexivity.
Qed.
Lemma kn_at_put_other : forall g s k s', s <> s' -> kn_at (put g s k) s' = kn_at g s'.
Proof.
  intros g [n s] k [n' s'] NE. unfold kn_at, put. cbn. rewrite upd_nth. destruct (Nat.eqb_spec n n') as [->|]; auto.
  destruct (nth_error (nodes g) n') as [x|]; auto. cbn. destruct s, s'; auto; congruence.
Qed.
Lemma kn_at_put : forall g s k s' x, kn_at (put g s k) s' = Some x -> (s = s' /\ x = k /\ kn_at g s <> None) \/ kn_at g s' = Some x.
Proof.
  intros g s k s' x H. destruct (slot_eq_dec s s') as [->|NE].
  - left. destruct (kn_at g s') eqn:E.
    + rewrite kn_at_put_same in H by congruence. inversion H. repeat split; auto. congruence.
    + exfalso. unfold kn_at, put in *. cbn in *. rewrite upd_nth, Nat.eqb_refl in H.
      destruct (nth_error (nodes g) (fst s')); cbn in *; congruence.
  - right. rewrite kn_at_put_other in H; auto.
Qed.

Lemma kn_at_bound : forall g s, kn_at g s <> None <-> fst s < length (nodes g).
Proof.
  intros g s. unfold kn_at. rewrite <- nth_error_Some. destruct (nth_error (nodes g) (fst s)); intuition congruence.
Qed.

Lemma kn_at_map : forall f g s, kn_at (map_kn f g) s = option_map f (kn_at g s).
Proof.
  intros f g [n s]. unfold kn_at, map_kn. cbn. rewrite nth_error_map. destruct (nth_error (nodes g) n); cbn; auto.
  destruct s; reflexivity.
Qed.

Lemma slots_feeds : forall e, feeds e = (src_slot e, dst_slot e).
Proof. intros [a b []]; reflexivity. Qed.

(** ** keeping what is settled *)
Definition keeps g g' : Prop :=
  length (nodes g) = length (nodes g') /\ (forall s t, settled g s t -> settled g' s t) /\
  (exists l, edges g' = edges g ++ l).

Lemma keeps_refl : forall g, keeps g g.
Proof. intros g. repeat split; auto. exists []. now rewrite app_nil_r. Qed.
Lemma keeps_trans : forall a b c, keeps a b -> keeps b c -> keeps a c.
Proof.
  intros a b c (L1 & S1 & l1 & E1) (L2 & S2 & l2 & E2). repeat split; auto. lia.
  exists (l1 ++ l2). rewrite E2, E1, app_assoc. reflexivity.
Qed.

Definition det (k : kn T) : option T := match k with Known t | Obliged t => Some t | _ => None end.
Lemma settled_det : forall g s t, settled g s t <-> exists k, kn_at g s = Some k /\ det k = Some t.
Proof.
  intros g s t. unfold settled. split.
  - intros [E|E]; rewrite E; eexists; split; eauto; reflexivity.
  - intros (k & E & D). rewrite E. destruct k; cbn in D; inversion D; auto.
Qed.

Lemma put_keeps : forall g s k k0, kn_at g s = Some k0 -> (forall t, det k0 = Some t -> det k = Some t) -> keeps g (put g s k).
Proof.
  intros g s k k0 E H. repeat split.
  - unfold put. cbn. now rewrite upd_length.
  - intros s' t S. apply settled_det in S. destruct S as (k' & E' & D). apply settled_det.
    destruct (slot_eq_dec s s') as [->|NE].
    + exists k. rewrite kn_at_put_same by congruence. split; auto. apply H. congruence.
    + exists k'. rewrite kn_at_put_other; auto.
  - exists []. cbn. now rewrite app_nil_r.
Qed.

Lemma can_flow_det : forall a b, can_flow eqb a b = Ok tt -> forall t, det b = Some t -> det a = Some t.
Proof.
  intros a b H t D. destruct a as [|x|x|xs], b as [|y|y|ys]; cbn in *; try discriminate; inversion D; subst;
    try (destruct (eqb x t) eqn:E; [apply eqb_eq in E; congruence|discriminate]).
  all: destruct (mem eqb t xs); discriminate.
Qed.

Lemma ok_unit : forall (r : res unit) u, r = Ok u -> r = Ok tt.
Proof. intros r [] H. exact H. Qed.

(** what an effect says *)
Lemma effect_forward : forall f from to, edge_effect eqb f from to = Forward -> can_flow eqb from to = Ok tt /\ (has_ty from = true \/ from = Any /\ f = II /\ det to = None).
Proof.
  intros f from to H. unfold edge_effect, guard in H. destruct (has_ty from) eqn:E.
  - destruct (can_flow eqb from to) as [[]| |] eqn:F; try discriminate. auto.
  - destruct f; try discriminate. destruct (fixed_kn to) eqn:K.
    + destruct (can_flow eqb to from); discriminate.
    + destruct from; cbn [is_any] in H; try discriminate. destruct (can_flow eqb Any to) as [[]| |] eqn:F; try discriminate.
      split; auto. right. repeat split; auto. destruct to; cbn in *; auto; discriminate.
Qed.
Lemma effect_back : forall f from to, edge_effect eqb f from to = Back -> can_flow eqb to from = Ok tt /\ (exists t, det to = Some t) /\ f = II /\ det from = None.
Proof.
  intros f from to H. unfold edge_effect, guard in H. destruct (has_ty from) eqn:E.
  - destruct (can_flow eqb from to) as [[]| |] eqn:F; discriminate.
  - destruct f; try discriminate. destruct (fixed_kn to) eqn:K.
    + destruct (can_flow eqb to from) as [[]| |] eqn:F; try discriminate. split; auto. split.
      destruct to; try discriminate; eexists; reflexivity. split; auto. destruct from; auto; discriminate.
    + destruct (is_any from); [|discriminate]. destruct (can_flow eqb from to) as [[]| |]; discriminate.
Qed.

Lemma flow_keeps : forall es s c, keeps (fst s) (fst (fst (flow_loop eqb es s c))).
Proof.
  induction es as [|i rest IH]; intros [g done] c; cbn [flow_loop fst snd]; [apply keeps_refl|].
  destruct (nth_error (edges g) i) as [e|]; [|apply keeps_refl].
  destruct (kn_at g (src_slot e)) as [from|] eqn:E1; [|apply keeps_refl].
  destruct (kn_at g (dst_slot e)) as [to|] eqn:E2; [|apply keeps_refl].
  destruct (edge_effect eqb (e_flow e) from to) eqn:F; try apply keeps_refl.
  - apply (IH (g, done) c).
  - eapply keeps_trans; [|apply (IH (_, _))]. apply effect_forward in F. destruct F as [F _]. eapply put_keeps; eauto.
    apply can_flow_det; auto.
  - eapply keeps_trans; [|apply (IH (_, _))]. apply effect_back in F. destruct F as [F _]. eapply put_keeps; eauto.
    apply can_flow_det; auto.
Qed.

Lemma int_inferred : forall a b ts, int eqb a b = Some ts -> exists x y, a = Inferred x /\ b = Inferred y /\
  ts = intersection eqb x y /\ set_eqb eqb ts x = false.
Proof.
  intros a b ts H. destruct a, b; try discriminate. cbn in H. destruct (set_eqb eqb (intersection eqb ts0 ts1) ts0) eqn:E; [discriminate|].
  inversion H; subst. eauto 8.
Qed.

Lemma intersect_keeps : forall es g c, keeps g (fst (intersect_loop eqb es g c)).
Proof.
  induction es as [|i rest IH]; intros g c; cbn [intersect_loop]; [apply keeps_refl|].
  destruct (nth_error (edges g) i) as [e|]; [|apply keeps_refl].
  destruct (kn_at g (src_slot e)) as [from|] eqn:E1; [|apply keeps_refl].
  destruct (kn_at g (dst_slot e)) as [to|] eqn:E2; [|apply keeps_refl].
  destruct (int eqb from to) as [ts|] eqn:F; [|apply IH].
  apply int_inferred in F. destruct F as (x & y & -> & -> & -> & _).
  assert (K1: keeps g (put g (src_slot e) (Inferred (intersection eqb x y)))) by (eapply put_keeps; [exact E1|discriminate]).
  eapply keeps_trans; [exact K1|]. eapply keeps_trans; [|apply IH].
  destruct (slot_eq_dec (src_slot e) (dst_slot e)) as [Q|Q].
  - eapply put_keeps. rewrite <- Q. apply kn_at_put_same. congruence. discriminate.
  - eapply put_keeps. rewrite kn_at_put_other by auto. exact E2. discriminate.
Qed.

Lemma map_keeps : forall f g a, (forall k t, det k = Some t -> det (f k) = Some t) ->
  keeps g {| nodes := nodes (map_kn f g); edges := edges g; anon_tys := a |}.
Proof.
  intros f g a H. repeat split.
  - cbn. now rewrite map_length.
  - intros s t S. apply settled_det in S. destruct S as (k & E & D). apply settled_det. exists (f k).
    split; auto. transitivity (kn_at (map_kn f g) s); [reflexivity|]. rewrite kn_at_map, E. reflexivity.
  - exists []. cbn. now rewrite app_nil_r.
Qed.

Lemma upgrade_keeps : forall g, keeps g (map_kn (@upgrade_kn T) g).
Proof. intros g. apply (map_keeps (@upgrade_kn T) g (anon_tys g)). intros [|x|x|[|x [|y r]]] t; cbn; auto; discriminate. Qed.

Lemma add_edge_keeps : forall g a b f, keeps g (add_edge g a b f).
Proof. intros. repeat split; auto. eexists. reflexivity. Qed.

Lemma at_slot_keeps : forall g s f, (forall k c k' t, f k = Ok (c, k') -> det k = Some t -> det k' = Some t) -> keeps g (fst (at_slot g s f)).
Proof.
  intros g s f H. unfold at_slot. destruct (kn_at g s) as [k|] eqn:E; [|apply keeps_refl].
  destruct (f k) as [[c k']| |] eqn:F; try apply keeps_refl. cbn. eapply put_keeps; eauto.
Qed.

Lemma set_kn_det : forall exp k c k' t, set_kn eqb k exp = Ok (c, k') -> det k = Some t -> det k' = Some t.
Proof.
  intros exp k c k' t H D. unfold set_kn in H. destruct (kn_eqb eqb k exp); [inversion H; subst; auto|].
  destruct (can_flow eqb exp k) as [[]| |] eqn:F; cbn in H; try discriminate. inversion H; subst.
  eapply can_flow_det; eauto.
Qed.
Lemma rm_inferred_det : forall u k c k' t, @Ok (bool * kn T) (rm_inferred eqb u k) = Ok (c, k') -> det k = Some t -> det k' = Some t.
Proof. intros u [|x|x|xs] c k' t H D; cbn in *; inversion H; subst; auto; discriminate. Qed.

Lemma apply_chg_keeps : forall g c, keeps g (fst (apply_chg eqb g c)).
Proof.
  intros g c. destruct c; cbn [apply_chg].
  1, 2, 5, 6: apply at_slot_keeps; intros; eapply set_kn_det; eauto.
  1, 3: apply at_slot_keeps; intros; eapply rm_inferred_det; eauto.
  - destruct (kn_at g (n, In_)); [|apply keeps_refl]. destruct (kn_ty k); [apply keeps_refl|].
    apply at_slot_keeps; intros; eapply set_kn_det; eauto.
  - destruct (has_edge g src dst f); [apply keeps_refl|]. destruct (_ && _); [|apply keeps_refl]. apply add_edge_keeps.
  - cbn [fst]. apply map_keeps. intros [|x|x|xs] u H; cbn in *; auto; discriminate.
Qed.

Lemma apply_chgs_keeps : forall cs g a, keeps g (fst (apply_chgs eqb g cs a)).
Proof.
  induction cs as [|c cs IH]; intros g a; cbn [apply_chgs]; [apply keeps_refl|].
  pose proof (apply_chg_keeps g c) as K. destruct (apply_chg eqb g c) as [g' [b|e|]]; auto.
  cbn [fst] in K. eapply keeps_trans; eauto.
Qed.

Lemma link_keeps : forall args g op c, keeps g (fst (link_args g op args c)).
Proof.
  induction args as [|a args IH]; intros g op c; cbn [link_args]; [apply keeps_refl|].
  destruct (joined g op a); [apply IH|]. eapply keeps_trans; [apply add_edge_keeps|apply IH].
Qed.

Lemma reduce_keeps : forall g op keys, keeps g (reduce_op g op keys).
Proof.
  intros g op keys. unfold reduce_op. destruct (kn_at g (op, In_)) as [k|] eqn:E; [|apply keeps_refl].
  destruct keys as [ts|]; [|apply keeps_refl]. destruct (is_multiple k) eqn:M; [|apply keeps_refl].
  eapply put_keeps; eauto. destruct k; try discriminate.
Qed.

Lemma intersect_sets_keeps : forall s, keeps (fst s) (fst (fst (intersect_inferred_sets eqb s))).
Proof.
  intros s. unfold intersect_inferred_sets. pose proof (intersect_keeps (pending s) (fst s) false) as K.
  destruct (intersect_loop eqb (pending s) (fst s) false). exact K.
Qed.

Lemma exec_keeps : forall s x, keeps (fst s) (fst (fst (exec eqb s x))).
Proof.
  intros s x. destruct x; cbn [exec].
  - pose proof (apply_chgs_keeps cs (fst s) false) as K. destruct (apply_chgs eqb (fst s) cs false). exact K.
  - apply intersect_sets_keeps.
  - apply upgrade_keeps.
  - apply flow_keeps.
  - pose proof (link_keeps args (fst s) op false) as K. destruct (link_args (fst s) op args false). exact K.
  - apply reduce_keeps.
Qed.

Lemma history_keeps : forall xs s, keeps (fst s) (fst (history eqb s xs)).
Proof.
  induction xs as [|x xs IH]; intros s; cbn [history]; [apply keeps_refl|].
  eapply keeps_trans; [apply exec_keeps|apply IH].
Qed.

Lemma history_settled : forall xs s p t, settled (fst s) p t -> settled (fst (history eqb s xs)) p t.
Proof. intros. apply history_keeps. auto. Qed.

Lemma resolve_keeps : forall fuel s s' r, resolve_tg eqb fuel s = Some (s', r) -> keeps (fst s) (fst s').
Proof.
  induction fuel as [|n IH]; intros s s' r H; cbn [resolve_tg] in H; [discriminate|].
  pose proof (intersect_sets_keeps s) as K1. destruct (intersect_inferred_sets eqb s) as [s1 r1]. cbn [fst] in K1.
  destruct r1; try (inversion H; subst; auto; fail).
  pose proof (flow_keeps (pending (upgrade s1)) (upgrade s1) false) as K2. unfold flow_types in H.
  destruct (flow_loop eqb (pending (upgrade s1)) (upgrade s1) false) as [s2 r2]. cbn [fst] in K2.
  assert (K: keeps (fst s) (fst s2)) by (eapply keeps_trans; [exact K1|]; eapply keeps_trans; [apply (upgrade_keeps (fst s1))|exact K2]).
  destruct r2 as [[|]| |]; try (inversion H; subst; auto; fail).
  eapply keeps_trans; [exact K|eapply IH; eauto].
Qed.

Lemma exec_c_keeps : forall s x, keeps (fst s) (fst (fst (exec_c eqb s x))).
Proof.
  intros s x. destruct x; cbn [exec_c].
  - pose proof (apply_chgs_keeps cs (fst s) false) as K. destruct (apply_chgs eqb (fst s) cs false). exact K.
  - pose proof (link_keeps args (fst s) op false) as K. destruct (link_args (fst s) op args false). exact K.
  - destruct (resolve_tg eqb (S (length (edges (fst s)))) s) as [[s' r]|] eqn:E; [|apply keeps_refl]. eapply resolve_keeps; eauto.
Qed.
Lemma compile_keeps : forall xs s, keeps (fst s) (fst (fst (compile_history eqb s xs))).
Proof.
  induction xs as [|x xs IH]; intros s; cbn [compile_history]; [apply keeps_refl|].
  pose proof (exec_c_keeps s x) as K. destruct (exec_c eqb s x) as [s' [u|e|]]; auto. eapply keeps_trans; [exact K|apply IH].
Qed.

(** ** conflicting claims *)
Lemma settle_conflict : forall g p t u (o : bool), settled g p t -> t <> u ->
  forall b g', at_slot g p (fun k => set_kn eqb k (if o then Known u else Obliged u)) <> (g', Ok b).
Proof.
  intros g p t u o S NE b g' H. unfold at_slot in H. apply settled_det in S. destruct S as (k & E & D). rewrite E in H.
  destruct (set_kn eqb k (if o then Known u else Obliged u)) as [[c k']| |] eqn:F; try discriminate.
  assert (K: det k' = Some u).
  { unfold set_kn in F. destruct (kn_eqb eqb k (if o then Known u else Obliged u)) eqn:Q.
    - inversion F; subst. destruct o, k'; cbn in *; try discriminate; apply eqb_eq in Q; subst; auto.
    - destruct (can_flow _ _ _) as [[]| |]; cbn in F; try discriminate. inversion F. destruct o; reflexivity. }
  pose proof (set_kn_det _ _ _ _ _ F D). congruence.
Qed.

Lemma claim_conflict : forall g c p t u, claims c = Some (p, u) -> settled g p t -> t <> u ->
  fst (apply_chg eqb g c) = g /\ forall b, snd (apply_chg eqb g c) <> Ok b.
Proof.
  intros g c p t u C S NE.
  assert (GEN: forall o : bool, (fst (at_slot g p (fun k => set_kn eqb k (if o then Known u else Obliged u))) = g /\
    forall b, snd (at_slot g p (fun k => set_kn eqb k (if o then Known u else Obliged u))) <> Ok b)).
  { intros o. pose proof (settle_conflict g p t u o S NE) as H.
    destruct (at_slot g p (fun k => set_kn eqb k (if o then Known u else Obliged u))) as [g' r] eqn:E. cbn.
    split; [|intros b ->; eapply H; reflexivity].
    unfold at_slot in E. apply settled_det in S. destruct S as (k & E' & D). rewrite E' in E.
    destruct (set_kn eqb k _) as [[c' k']| |]; inversion E; subst; auto. exfalso. eapply H. reflexivity. }
  destruct c; cbn in C; inversion C; subst; cbn [apply_chg]; first [apply (GEN true)|apply (GEN false)].
Qed.

Lemma claim_accepted : forall g c p u g' b, claims c = Some (p, u) -> kn_at g p <> None -> apply_chg eqb g c = (g', Ok b) -> settled g' p u.
Proof.
  intros g c p u g' b C N H.
  assert (GEN: forall o : bool, at_slot g p (fun k => set_kn eqb k (if o then Known u else Obliged u)) = (g', Ok b) -> settled g' p u).
  { intros o E. unfold at_slot in E. destruct (kn_at g p) as [k|] eqn:K; [|congruence].
    destruct (set_kn eqb k _) as [[c' k']| |] eqn:F; inversion E; subst. apply settled_det. exists k'.
    rewrite kn_at_put_same by congruence. split; auto.
    unfold set_kn in F. destruct (kn_eqb eqb k (if o then Known u else Obliged u)) eqn:Q.
    - inversion F; subst. destruct o, k'; cbn in *; try discriminate; apply eqb_eq in Q; subst; auto.
    - destruct (can_flow _ _ _) as [[]| |]; cbn in F; try discriminate. inversion F. destruct o; reflexivity. }
  destruct c; cbn in C; inversion C; subst; cbn [apply_chg] in H; first [apply (GEN true); assumption|apply (GEN false); assumption].
Qed.
End proofs.
