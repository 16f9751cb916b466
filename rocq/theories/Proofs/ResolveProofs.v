From Coq Require Import List Bool Arith Lia.
From Verif Require Import Model.Base Model.TyGraph Spec.TyGraphSpec Proofs.TyGraphProofs.
Import ListNotations.

Lemma filter_le : forall A (f f' : A -> bool) l, (forall x, In x l -> f' x = true -> f x = true) ->
  length (filter f' l) <= length (filter f l).
Proof.
  induction l as [|x l IH]; intros H; cbn; [lia|].
  assert (IL: length (filter f' l) <= length (filter f l)) by (apply IH; intros; apply H; cbn; auto).
  destruct (f' x) eqn:E'; destruct (f x) eqn:E; cbn; try lia.
  rewrite (H x) in E; cbn; auto; discriminate.
Qed.
Lemma filter_lt : forall A (f f' : A -> bool) l, (forall x, In x l -> f' x = true -> f x = true) ->
  (exists x, In x l /\ f x = true /\ f' x = false) -> length (filter f' l) < length (filter f l).
Proof.
  induction l as [|x l IH]; intros H (y & I & F & F'); [destruct I|]. cbn.
  assert (HL: forall z, In z l -> f' z = true -> f z = true) by (intros; apply H; cbn; auto).
  destruct I as [->|I].
  - rewrite F, F'. cbn. pose proof (filter_le A f f' l HL). lia.
  - assert (IL: length (filter f' l) < length (filter f l)) by (apply IH; eauto).
    destruct (f' x) eqn:E'; destruct (f x) eqn:E; cbn; try lia. rewrite (H x) in E; cbn; auto; discriminate.
Qed.

Section proofs.
Variables (T : Type) (eqb : T -> T -> bool).
Hypothesis eqb_eq : forall a b, eqb a b = true <-> a = b.
Implicit Types (g : tgraph T) (k : kn T).
Let keeps := keeps T.

(** ** termination *)
Lemma flow_shape : forall es s c s' r, flow_loop eqb es s c = (s', r) ->
  edges (fst s') = edges (fst s) /\
  exists l, snd s' = l ++ snd s /\ incl l es /\ (forall b, r = Ok b -> b = c \/ l <> []) /\ (r = Ok false -> c = false /\ l = [] /\ s' = s).
Proof.
  induction es as [|i rest IH]; intros [g done] c s' r H; cbn [flow_loop fst snd] in H.
  - inversion H; subst. split; auto. exists []. split; auto. split; [easy|]. split.
    + intros b E. inversion E; auto.
    + intros E. inversion E; subst. auto.
  - assert (BAD: forall (x : state T) (q : res bool), (x, q) = (s', r) -> x = (g, done) -> (forall b, q <> Ok b) ->
      edges (fst s') = edges g /\ exists l, snd s' = l ++ done /\ incl l (i :: rest) /\ (forall b, r = Ok b -> b = c \/ l <> []) /\ (r = Ok false -> c = false /\ l = [] /\ s' = (g, done))).
    { intros x q E -> NQ. inversion E; subst. split; auto. exists []. split; auto. split; [easy|]. split; intros; subst; exfalso; eapply NQ; eauto. }
    destruct (nth_error (edges g) i) as [e|]; [|eapply BAD; eauto; discriminate].
    destruct (kn_at g (src_slot e)) as [from|]; [|eapply BAD; eauto; discriminate].
    destruct (kn_at g (dst_slot e)) as [to|]; [|eapply BAD; eauto; discriminate].
    assert (GO: forall g', edges g' = edges g -> flow_loop eqb rest (g', i :: done) true = (s', r) ->
      edges (fst s') = edges g /\ exists l, snd s' = l ++ done /\ incl l (i :: rest) /\ (forall b, r = Ok b -> b = c \/ l <> []) /\ (r = Ok false -> c = false /\ l = [] /\ s' = (g, done))).
    { intros g' EG F. apply IH in F. cbn [fst snd] in F. destruct F as (E & l & D & IN & B & N).
      split; [congruence|]. exists (l ++ [i]). rewrite <- app_assoc. split; auto. split.
      intros x I. apply in_app_or in I. destruct I as [I|[<-|[]]]; cbn; auto. split.
      intros b _. right. intros Q. apply app_eq_nil in Q. destruct Q; discriminate.
      intros Q. destruct (N Q) as [? _]. discriminate. }
    destruct (edge_effect eqb (e_flow e) from to); try (eapply BAD; eauto; discriminate).
    + apply IH in H. cbn [fst snd] in H. destruct H as (E & l & D & IN & B & N). split; auto. exists l. split; auto. split.
      intros x I. cbn. auto. split; auto.
    + eapply GO; [|exact H]. reflexivity.
    + eapply GO; [|exact H]. reflexivity.
Qed.

Lemma flow_shape_ok : forall es s c s', flow_loop eqb es s c = (s', Ok true) -> c = false ->
  edges (fst s') = edges (fst s) /\ exists l, l <> [] /\ snd s' = l ++ snd s /\ incl l es.
Proof.
  intros es s c s' H ->. apply flow_shape in H. destruct H as (E & l & D & I & B & _). split; auto. exists l.
  destruct (B true eq_refl) as [Q|Q]; [discriminate|auto].
Qed.

Lemma pending_in : forall (s : state T) i, In i (pending s) <-> i < length (edges (fst s)) /\ ~ In i (snd s).
Proof.
  intros s i. unfold pending. rewrite filter_In, in_seq, negb_true_iff.
  assert (Q: existsb (Nat.eqb i) (snd s) = false <-> ~ In i (snd s)).
  { destruct (existsb (Nat.eqb i) (snd s)) eqn:E.
    - apply existsb_exists in E. destruct E as (x & I & E). apply Nat.eqb_eq in E. subst. split; [discriminate|contradiction].
    - split; auto. intros _ I. assert (X: existsb (Nat.eqb i) (snd s) = true) by (apply existsb_exists; exists i; split; auto; apply Nat.eqb_refl). congruence. }
  rewrite Q. intuition lia.
Qed.

Lemma flow_less : forall s s', flow_types eqb s = (s', Ok true) -> length (pending s') < length (pending s).
Proof.
  intros s s' H. apply flow_shape_ok in H; auto. destruct H as (E & l & NE & D & I). unfold pending at 1 2. rewrite E, D.
  apply filter_lt.
  - intros x _. rewrite !negb_true_iff, existsb_app. apply orb_false_elim.
  - destruct l as [|x l]; [congruence|]. exists x.
    assert (P: In x (pending s)) by (apply I; cbn; auto). unfold pending in P. apply filter_In in P. destruct P as [P1 P2].
    split; auto. split; auto. cbn. rewrite Nat.eqb_refl. reflexivity.
Qed.

Lemma intersect_edges : forall es g c, edges (fst (intersect_loop eqb es g c)) = edges g.
Proof.
  induction es as [|i rest IH]; intros g c; cbn [intersect_loop]; auto.
  destruct (nth_error (edges g) i); auto. destruct (kn_at g (src_slot e)); auto. destruct (kn_at g (dst_slot e)); auto.
  destruct (int eqb k k0); auto. rewrite IH. reflexivity.
Qed.

Lemma intersect_state : forall (s s1 : state T) r, intersect_inferred_sets eqb s = (s1, r) ->
  edges (fst s1) = edges (fst s) /\ snd s1 = snd s /\ pending (upgrade s1) = pending s.
Proof.
  intros s s1 r H. unfold intersect_inferred_sets in H. pose proof (intersect_edges (pending s) (fst s) false) as E.
  destruct (intersect_loop eqb (pending s) (fst s) false) as [g q]. inversion H; subst. cbn in *. split; auto. split; auto.
  unfold pending, upgrade. cbn. now rewrite E.
Qed.

Lemma resolve_stops : forall fuel s, length (pending s) < fuel -> resolve_tg eqb fuel s <> None.
Proof.
  induction fuel as [|n IH]; intros s L; [lia|]. cbn [resolve_tg].
  destruct (intersect_inferred_sets eqb s) as [s1 r1] eqn:E1. destruct (intersect_state _ _ _ E1) as (_ & _ & P).
  destruct r1; try discriminate. destruct (flow_types eqb (upgrade s1)) as [s2 r2] eqn:E2.
  destruct r2 as [[|]| |]; try discriminate. apply IH. apply flow_less in E2. rewrite P in E2. lia.
Qed.

Lemma pending_bound : forall s : state T, length (pending s) <= length (edges (fst s)).
Proof.
  intros s. unfold pending.
  assert (Q: forall (f : nat -> bool) l, length (filter f l) <= length l) by (intros f; induction l as [|x l IH]; cbn; [lia|]; destruct (f x); cbn; lia).
  etransitivity; [apply Q|]. now rewrite seq_length.
Qed.

Lemma resolve_fuel : forall fuel s x, resolve_tg eqb fuel s = Some x -> forall more, resolve_tg eqb (fuel + more) s = Some x.
Proof.
  induction fuel as [|n IH]; intros s x H more; [discriminate|]. cbn [resolve_tg plus] in *.
  destruct (intersect_inferred_sets eqb s) as [s1 [b|e|]]; auto. destruct (flow_types eqb (upgrade s1)) as [s2 [[|]|e|]]; auto.
Qed.

Lemma resolve_always : forall s fuel, length (edges (fst s)) < fuel -> exists x, resolve_tg eqb fuel s = Some x /\
  forall more, resolve_tg eqb (fuel + more) s = Some x.
Proof.
  intros s fuel L. destruct (resolve_tg eqb fuel s) as [x|] eqn:E.
  - exists x. split; auto. intros more. eapply resolve_fuel; eauto.
  - exfalso. eapply resolve_stops; [|exact E]. pose proof (pending_bound s). lia.
Qed.

(** ** the end of a resolution *)
Definition no_single g : Prop := forall p t, kn_at g p <> Some (Inferred [t]).

Lemma upgrade_no_single : forall g, no_single (map_kn (@upgrade_kn T) g).
Proof.
  intros g p t H. rewrite kn_at_map in H. destruct (kn_at g p) as [k|]; cbn in H; [|discriminate].
  inversion H. destruct k as [|x|x|[|x [|y r]]]; cbn in *; congruence.
Qed.

Lemma flow_stay : forall es s s', flow_loop eqb es s false = (s', Ok false) -> s' = s /\
  forall i, In i es -> exists e from to, nth_error (edges (fst s)) i = Some e /\ kn_at (fst s) (src_slot e) = Some from /\
    kn_at (fst s) (dst_slot e) = Some to /\ edge_effect eqb (e_flow e) from to = Stay.
Proof.
  induction es as [|i rest IH]; intros [g done] s' H; cbn [flow_loop fst snd] in H.
  - inversion H; subst. split; auto. intros i [].
  - cbn [fst] in *. destruct (nth_error (edges g) i) as [e|] eqn:Ee; [|discriminate].
    destruct (kn_at g (src_slot e)) as [from|] eqn:E1; [|discriminate].
    destruct (kn_at g (dst_slot e)) as [to|] eqn:E2; [|discriminate].
    assert (NO: forall x, flow_loop eqb rest x true <> (s', Ok false)).
    { intros x F. apply flow_shape in F. destruct F as (_ & l & _ & _ & _ & N). destruct (N eq_refl). discriminate. }
    destruct (edge_effect eqb (e_flow e) from to) eqn:F; try discriminate; try (exfalso; eapply NO; exact H).
    apply IH in H. cbn [fst] in H. destruct H as [-> R]. split; auto. intros j [<-|I]; [|apply R; auto].
    exists e, from, to. auto.
Qed.

Lemma stay_meaning : forall f from to, edge_effect eqb f from to = Stay ->
  has_ty from = false /\ (f = II -> fixed_kn to = false /\ from <> Any).
Proof.
  intros f from to H. unfold edge_effect, guard in H. destruct (has_ty from) eqn:E.
  - destruct (can_flow eqb from to); discriminate.
  - split; auto. intros ->. destruct (fixed_kn to). destruct (can_flow eqb to from); discriminate.
    split; auto. intros ->. cbn [is_any] in H. destruct (can_flow eqb Any to); discriminate.
Qed.

Lemma resolve_rest : forall fuel s s', resolve_tg eqb fuel s = Some (s', Ok tt) -> at_rest s'.
Proof.
  induction fuel as [|n IH]; intros s s' H; cbn [resolve_tg] in H; [discriminate|].
  destruct (intersect_inferred_sets eqb s) as [s1 [b|e|]]; try discriminate.
  destruct (flow_types eqb (upgrade s1)) as [s2 [[|]|e|]] eqn:E2; try discriminate; [eapply IH; eauto|].
  inversion H; subst. unfold flow_types in E2. apply flow_stay in E2. destruct E2 as [-> R]. split.
  - apply upgrade_no_single.
  - intros i e N ND. destruct (R i) as (e' & from & to & E & K1 & K2 & F).
    { apply pending_in. split; auto. apply nth_error_Some. congruence. }
    assert (e' = e) by congruence. subst e'. rewrite slots_feeds. cbn [fst snd]. exists from, to. split; auto. split; auto.
    apply stay_meaning in F. destruct F as [F1 F2]. split.
    + intros t [Q|Q]; rewrite Q in K1; inversion K1; subst; discriminate.
    + intros EF. destruct (F2 EF) as [F3 F4]. split; auto.
      intros t [Q|Q]; rewrite Q in K2; inversion K2; subst; discriminate.
Qed.

(** ** edges that have flowed agree *)
Definition ok_edge (strict : bool) g e : Prop := agrees g e \/ (strict = false /\ e_flow e = II).
Definition done_ok (strict : bool) (s : state T) : Prop :=
  forall i, In i (snd s) -> exists e, nth_error (edges (fst s)) i = Some e /\ ok_edge strict (fst s) e.

Lemma agrees_keeps : forall g g' e, keeps g g' -> agrees g e -> agrees g' e.
Proof. intros g g' e (_ & S & _) (t & A & B). exists t. auto. Qed.
Lemma ok_edge_keeps : forall st g g' e, keeps g g' -> ok_edge st g e -> ok_edge st g' e.
Proof. intros st g g' e K [A|A]; [left; eapply agrees_keeps; eauto|right; auto]. Qed.
Lemma done_keeps : forall st g g' done, keeps g g' -> done_ok st (g, done) -> done_ok st (g', done).
Proof.
  intros st g g' done K D i I. destruct (D i I) as (e & N & O). exists e. cbn in *. split.
  - destruct K as (_ & _ & l & ->). rewrite nth_error_app1; auto. apply nth_error_Some. congruence.
  - eapply ok_edge_keeps; eauto.
Qed.

Lemma put_no_any : forall g p k, no_any g -> k <> Any -> no_any (put g p k).
Proof. intros g p k N NE q H. apply kn_at_put in H. destruct H as [(-> & E & _)|H]; [congruence|eapply N; eauto]. Qed.
Lemma put_no_single : forall g p p' k, no_single g -> kn_at g p' = Some k -> no_single (put g p k).
Proof. intros g p p' k N E q t H. apply kn_at_put in H. destruct H as [(-> & Q & _)|H]; [|eapply N; eauto]. subst. eapply N; eauto. Qed.

Lemma put_both : forall g p q k, kn_at g p = Some k -> kn_at g q <> None -> kn_at (put g q k) p = Some k /\ kn_at (put g q k) q = Some k.
Proof.
  intros g p q k E N. split; [|apply kn_at_put_same; auto].
  destruct (slot_eq_dec q p) as [->|NE]; [apply kn_at_put_same; auto|rewrite kn_at_put_other; auto].
Qed.

Lemma both_agree : forall g e k t, kn_at g (src_slot e) = Some k -> kn_at g (dst_slot e) = Some k -> det T k = Some t -> agrees g e.
Proof.
  intros g e k t A B D. exists t. rewrite slots_feeds. cbn [fst snd]. split; apply settled_det; exists k; auto.
Qed.

Lemma flow_done : forall strict es s c, no_single (fst s) -> (strict = true -> no_any (fst s)) -> done_ok strict s ->
  let s' := fst (flow_loop eqb es s c) in
  no_single (fst s') /\ (strict = true -> no_any (fst s')) /\ done_ok strict s'.
Proof.
  intros strict. induction es as [|i rest IH]; intros [g done] c NS NA D; cbn [flow_loop fst snd] in *; auto.
  destruct (nth_error (edges g) i) as [e|] eqn:Ee; auto.
  destruct (kn_at g (src_slot e)) as [from|] eqn:E1; auto.
  destruct (kn_at g (dst_slot e)) as [to|] eqn:E2; auto.
  destruct (edge_effect eqb (e_flow e) from to) eqn:F; auto; apply IH; cbn [fst snd]; auto.
  - eapply put_no_single; eauto.
  - intros S. apply put_no_any; auto. intros ->. eapply NA; eauto.
  - apply effect_forward in F. destruct F as [CF W].
    assert (K: keeps g (put g (dst_slot e) from)) by (eapply put_keeps; eauto; eapply can_flow_det; eauto).
    assert (D' := done_keeps strict _ _ _ K D). intros j [<-|I]; [|exact (D' j I)]. exists e. split; auto.
    destruct (put_both g (src_slot e) (dst_slot e) from) as [Q1 Q2]; [exact E1|congruence|].
    destruct W as [W|(-> & EF & _)].
    + left. destruct from as [|x|x|xs]; try discriminate; [eapply both_agree; eauto; reflexivity|eapply both_agree; eauto; reflexivity|].
      exfalso. cbn in W. unfold is_single in W. destruct xs as [|x [|y r]]; try discriminate. eapply NS; eauto.
    + right. split; auto. destruct strict; auto. exfalso. exact (NA eq_refl _ E1).
  - eapply put_no_single; eauto.
  - intros S. apply put_no_any; auto. intros ->. eapply NA; eauto.
  - apply effect_back in F. destruct F as [CF ((t & DT) & EF & _)].
    assert (K: keeps g (put g (src_slot e) to)) by (eapply put_keeps; eauto; eapply can_flow_det; eauto).
    assert (D' := done_keeps strict _ _ _ K D). intros j [<-|I]; [|exact (D' j I)]. exists e. split; auto.
    destruct (put_both g (dst_slot e) (src_slot e) to) as [Q1 Q2]; [exact E2|congruence|].
    left. eapply both_agree; eauto.
Qed.

Lemma intersect_no_any : forall es g c, no_any g -> no_any (fst (intersect_loop eqb es g c)).
Proof.
  induction es as [|i rest IH]; intros g c N; cbn [intersect_loop]; auto.
  destruct (nth_error (edges g) i); auto. destruct (kn_at g (src_slot e)); auto. destruct (kn_at g (dst_slot e)); auto.
  destruct (int eqb k k0); auto. apply IH. apply put_no_any; [apply put_no_any|]; auto; discriminate.
Qed.
Lemma upgrade_no_any : forall g, no_any g -> no_any (map_kn (@upgrade_kn T) g).
Proof.
  intros g N p H. rewrite kn_at_map in H. destruct (kn_at g p) as [k|] eqn:E; [|discriminate]. cbn in H. inversion H.
  destruct k as [|x|x|[|x [|y r]]]; cbn in *; try discriminate. eapply N; eauto.
Qed.

Lemma resolve_done : forall strict fuel s s' r, (strict = true -> no_any (fst s)) -> done_ok strict s ->
  resolve_tg eqb fuel s = Some (s', r) -> (strict = true -> no_any (fst s')) /\ done_ok strict s'.
Proof.
  intros strict. induction fuel as [|n IH]; intros s s' r NA D H; cbn [resolve_tg] in H; [discriminate|].
  pose proof (intersect_sets_keeps T eqb s) as K1.
  pose proof (intersect_no_any (pending s) (fst s) false) as N1.
  destruct (intersect_inferred_sets eqb s) as [s1 r1] eqn:E1. destruct (intersect_state _ _ _ E1) as (_ & SD & P). cbn [fst] in K1.
  assert (F1: fst s1 = fst (intersect_loop eqb (pending s) (fst s) false)).
  { unfold intersect_inferred_sets in E1. destruct (intersect_loop eqb (pending s) (fst s) false). inversion E1. reflexivity. }
  assert (D1: done_ok strict s1). { destruct s1 as [g1 d1], s as [g d]. cbn in *. subst d1. apply (done_keeps strict g); auto. }
  assert (A1: strict = true -> no_any (fst s1)) by (intros S; rewrite F1; auto).
  assert (D2: done_ok strict (upgrade s1)) by (destruct s1; apply (done_keeps strict t); auto; apply upgrade_keeps).
  destruct r1; try (inversion H; subst; auto; fail).
  destruct (flow_done strict (pending (upgrade s1)) (upgrade s1) false) as (NS3 & NA3 & D3); auto.
  { apply upgrade_no_single. } { intros S. apply upgrade_no_any. auto. }
  unfold flow_types in H. destruct (flow_loop eqb (pending (upgrade s1)) (upgrade s1) false) as [s2 r2]. cbn [fst] in *.
  destruct r2 as [[|]| |]; try (inversion H; subst; auto; fail). eapply IH; eauto.
Qed.

Lemma at_slot_no_any : forall g p f, (forall k c k', k <> Any -> f k = Ok (c, k') -> k' <> Any) -> no_any g -> no_any (fst (at_slot g p f)).
Proof.
  intros g p f H N. unfold at_slot. destruct (kn_at g p) as [k|] eqn:E; auto. destruct (f k) as [[c k']| |] eqn:F; auto.
  apply put_no_any; auto. eapply H; eauto. intros ->. eapply N; eauto.
Qed.
Lemma set_kn_not_any : forall exp k c k', exp <> Any -> k <> Any -> set_kn eqb k exp = Ok (c, k') -> k' <> Any.
Proof.
  intros exp k c k' NE NK H. unfold set_kn in H. destruct (kn_eqb eqb k exp); [inversion H; subst; auto|].
  destruct (can_flow eqb exp k); cbn in H; inversion H; subst; auto.
Qed.
Lemma apply_no_any : forall g c, narrowing c -> no_any g -> no_any (fst (apply_chg eqb g c)).
Proof.
  intros g c NC N. destruct c; cbn [apply_chg narrowing] in *; try contradiction.
  1, 2, 4, 5: apply at_slot_no_any; auto; intros ? ? ? NK; apply set_kn_not_any; [discriminate|exact NK].
  1, 2: apply at_slot_no_any; auto; intros k c k' NK H; destruct k; cbn in H; inversion H; subst; auto; discriminate.
  destruct (has_edge g src dst f); auto. destruct (_ && _); auto.
Qed.
Lemma applys_no_any : forall cs g a, Forall (@narrowing T) cs -> no_any g -> no_any (fst (apply_chgs eqb g cs a)).
Proof.
  induction cs as [|c cs IH]; intros g a F N; cbn [apply_chgs]; auto. inversion F; subst.
  pose proof (apply_no_any g c H1 N) as K. destruct (apply_chg eqb g c) as [g' [b|e|]]; auto.
Qed.
Lemma link_no_any : forall args g op c, no_any g -> no_any (fst (link_args g op args c)).
Proof. induction args as [|a args IH]; intros g op c N; cbn [link_args]; auto. destruct (joined g op a); auto. Qed.

Lemma history_done : forall strict xs s, (strict = true -> no_any (fst s) /\ Forall (@narrowing_c T) xs) -> done_ok strict s ->
  done_ok strict (fst (compile_history eqb s xs)) /\ (strict = true -> no_any (fst (fst (compile_history eqb s xs)))).
Proof.
  intros strict. induction xs as [|x xs IH]; intros s NA D; cbn [compile_history].
  - split; auto. intros S. apply NA in S. tauto.
  - assert (STEP: done_ok strict (fst (exec_c eqb s x)) /\ (strict = true -> no_any (fst (fst (exec_c eqb s x))))).
    { pose proof (exec_c_keeps T eqb eqb_eq s x) as K. destruct x; cbn [exec_c] in *.
      - pose proof (applys_no_any cs (fst s) false) as N1. destruct (apply_chgs eqb (fst s) cs false) as [g' q]. cbn [fst] in *. split.
        + destruct s. apply (done_keeps strict t); auto.
        + intros S. destruct (NA S) as [N F]. inversion F; subst. apply N1; auto.
      - pose proof (link_no_any args (fst s) op false) as N1. destruct (link_args (fst s) op args false) as [g' q]. cbn [fst] in *. split.
        + destruct s. apply (done_keeps strict t); auto.
        + intros S. destruct (NA S). auto.
      - destruct (resolve_tg eqb (S (length (edges (fst s)))) s) as [[s' r]|] eqn:E; cbn [fst] in *.
        + eapply resolve_done in E; eauto. tauto. intros S. destruct (NA S). auto.
        + split; auto. intros S. destruct (NA S). auto. }
    destruct (exec_c eqb s x) as [s' [u|e|]]; auto. apply IH; try tauto. cbn [fst] in STEP. intros S. split; [tauto|].
    destruct (NA S) as [_ F]. inversion F; auto.
Qed.

Lemma start_done : forall strict g, done_ok strict (g, []).
Proof. intros strict g i []. Qed.

Lemma compile_app : forall xs ys s, compile_history eqb s (xs ++ ys) =
  match compile_history eqb s xs with (s', Ok _) => compile_history eqb s' ys | other => other end.
Proof.
  induction xs as [|x xs IH]; intros ys s; cbn [app compile_history].
  - reflexivity.
  - destruct (exec_c eqb s x) as [s' [u|e|]]; auto.
Qed.

(** after a compilation whose last step is a resolution no edge joins two different settled types *)
Lemma no_clash : forall strict xs g s, (strict = true -> no_any g /\ Forall (@narrowing_c T) xs) ->
  compile_history eqb (g, []) (xs ++ [CResolve T]) = (s, Ok tt) ->
  forall e t u, In e (edges (fst s)) -> strict = true \/ e_flow e <> II ->
    settled (fst s) (fst (feeds e)) t -> settled (fst s) (snd (feeds e)) u -> t = u.
Proof.
  intros strict xs g s NA H e t u I ST A B.
  assert (D: done_ok strict s).
  { pose proof (history_done strict (xs ++ [CResolve T]) (g, [])) as Q. rewrite H in Q. apply Q; [|apply start_done].
    intros S. destruct (NA S) as [N F]. split; auto. apply Forall_app. split; auto. repeat constructor. }
  assert (R: at_rest s).
  { rewrite compile_app in H. destruct (compile_history eqb (g, []) xs) as [s1 [v|x|]]; try discriminate.
    cbn [compile_history exec_c] in H. destruct (resolve_tg eqb (S (length (edges (fst s1)))) s1) as [[s2 [w|x|]]|] eqn:E; try discriminate.
    inversion H; subst. destruct w. eapply resolve_rest; eauto. }
  apply In_nth_error in I. destruct I as (i & N).
  destruct (in_dec Nat.eq_dec i (snd s)) as [J|J].
  - destruct (D i J) as (e' & N' & [(w & W1 & W2)|[Q1 Q2]]); assert (e' = e) by congruence; subst e'.
    + apply settled_det in A, B, W1, W2. destruct A as (? & A & ?), B as (? & B & ?), W1 as (? & W1 & ?), W2 as (? & W2 & ?). congruence.
    + exfalso. destruct ST; congruence.
  - destruct R as [_ R]. destruct (R i e N J) as (from & to & _ & _ & K & _). exfalso. eapply K; eauto.
Qed.

(** a clash that is there when resolution starts is refused *)
Lemma flow_clash : forall es s c i e t u, In i es -> nth_error (edges (fst s)) i = Some e ->
  settled (fst s) (src_slot e) t -> settled (fst s) (dst_slot e) u -> t <> u -> forall b, snd (flow_loop eqb es s c) <> Ok b.
Proof.
  induction es as [|j rest IH]; intros [g done] c i e t u I N A B NE b; [destruct I|]. cbn [flow_loop fst snd] in *.
  destruct (nth_error (edges g) j) as [e'|] eqn:Ee; [|discriminate].
  destruct (kn_at g (src_slot e')) as [from|] eqn:E1; [|discriminate].
  destruct (kn_at g (dst_slot e')) as [to|] eqn:E2; [|discriminate].
  destruct (Nat.eq_dec j i) as [->|NJ].
  - assert (e' = e) by congruence. subst e'. apply settled_det in A, B. destruct A as (k1 & A & D1), B as (k2 & B & D2).
    assert (k1 = from) by congruence. assert (k2 = to) by congruence. subst.
    unfold edge_effect. replace (has_ty from) with true by (destruct from; cbn in *; auto; discriminate).
    destruct (can_flow eqb from to) as [[]| |] eqn:F; cbn [guard]; try discriminate.
    exfalso. pose proof (can_flow_det T eqb eqb_eq _ _ F _ D2). congruence.
  - destruct I as [->|I]; [congruence|].
    destruct (edge_effect eqb (e_flow e') from to) eqn:F; try discriminate.
    + eapply (IH (g, done)); eauto.
    + apply effect_forward in F. destruct F as [F _].
      assert (K: keeps g (put g (dst_slot e') from)) by (eapply put_keeps; eauto; eapply can_flow_det; eauto).
      destruct K as (_ & K & _). eapply (IH (put g (dst_slot e') from, j :: done)); cbn [fst]; eauto.
    + apply effect_back in F. destruct F as [F _].
      assert (K: keeps g (put g (src_slot e') to)) by (eapply put_keeps; eauto; eapply can_flow_det; eauto).
      destruct K as (_ & K & _). eapply (IH (put g (src_slot e') to, j :: done)); cbn [fst]; eauto.
Qed.

Lemma resolve_clash : forall fuel s s' r i e t u, resolve_tg eqb fuel s = Some (s', r) ->
  nth_error (edges (fst s)) i = Some e -> ~ In i (snd s) ->
  settled (fst s) (fst (feeds e)) t -> settled (fst s) (snd (feeds e)) u -> t <> u -> r <> Ok tt.
Proof.
  intros fuel s s' r i e t u H N J A B NE. destruct fuel as [|n]; [discriminate|]. cbn [resolve_tg] in H.
  rewrite slots_feeds in A, B. cbn [fst snd] in A, B.
  pose proof (intersect_sets_keeps T eqb s) as K1.
  destruct (intersect_inferred_sets eqb s) as [s1 r1] eqn:E1. destruct (intersect_state _ _ _ E1) as (ED & SD & P). cbn [fst] in K1.
  destruct r1; try (inversion H; subst; discriminate).
  unfold flow_types in H. rewrite P in H.
  pose proof (upgrade_keeps T (fst s1)) as K2.
  assert (NO: forall b, snd (flow_loop eqb (pending s) (upgrade s1) false) <> Ok b).
  { eapply flow_clash with (i := i) (e := e); eauto.
    - apply pending_in. split; auto. apply nth_error_Some. congruence.
    - cbn. rewrite ED. auto.
    - apply K2, K1. auto.
    - apply K2, K1. auto. }
  destruct (flow_loop eqb (pending s) (upgrade s1) false) as [s2 r2]. cbn [snd] in NO.
  destruct r2 as [[|]| |]; try (exfalso; eapply NO; reflexivity); inversion H; subst; discriminate.
Qed.

(** ** knowledge only narrows *)
Definition narrower k' k : Prop := forall t, allows k' t -> allows k t.
Definition narrows g g' : Prop := forall p k', kn_at g' p = Some k' -> exists k, kn_at g p = Some k /\ narrower k' k.

Lemma narrows_refl : forall g, narrows g g.
Proof. intros g p k E. exists k. split; auto. intros t; auto. Qed.
Lemma narrows_trans : forall a b c, narrows a b -> narrows b c -> narrows a c.
Proof.
  intros a b c H1 H2 p k E. destruct (H2 p k E) as (k1 & E1 & N1). destruct (H1 p k1 E1) as (k2 & E2 & N2).
  exists k2. split; auto. intros t A. auto.
Qed.
Lemma put_narrows : forall g p k k0, kn_at g p = Some k0 -> narrower k k0 -> narrows g (put g p k).
Proof.
  intros g p k k0 E N q k' H. apply kn_at_put in H. destruct H as [(-> & -> & _)|H]; eauto. exists k'. split; auto. intros t; auto.
Qed.
Lemma map_narrows : forall f g, (forall k, narrower (f k) k) -> narrows g (map_kn f g).
Proof.
  intros f g H p k' E. rewrite kn_at_map in E. destruct (kn_at g p) as [k|]; [|discriminate]. inversion E. subst. exists k. auto.
Qed.

Lemma can_flow_narrower : forall a b, can_flow eqb a b = Ok tt -> a <> Any -> narrower a b.
Proof.
  intros a b H NA t A. destruct a as [|x|x|xs], b as [|y|y|ys]; cbn in *; try congruence; auto.
  - subst. destruct (eqb t y) eqn:E; [apply eqb_eq in E; auto|discriminate].
  - subst. destruct (eqb t y) eqn:E; [apply eqb_eq in E; auto|discriminate].
  - subst. destruct (mem eqb t ys) eqn:E; [|discriminate]. eapply mem_in; eauto.
  - subst. destruct (eqb t y) eqn:E; [apply eqb_eq in E; auto|discriminate].
  - subst. destruct (eqb t y) eqn:E; [apply eqb_eq in E; auto|discriminate].
  - subst. destruct (mem eqb t ys) eqn:E; [|discriminate]. eapply mem_in; eauto.
  - destruct (mem eqb y xs); discriminate.
  - destruct (mem eqb y xs); discriminate.
  - destruct (set_eqb eqb xs ys) eqn:E; [|destruct (disjoint eqb xs ys); discriminate]. eapply set_eqb_incl; eauto.
Qed.

Lemma intersection_both : forall a b t, In t (intersection eqb a b) -> In t a /\ In t b.
Proof.
  intros a b t. unfold intersection. destruct (set_eqb eqb a b) eqn:E.
  - intros I. split; auto. eapply set_eqb_incl; eauto.
  - intros I. apply filter_In in I. destruct I as [I M]. split; auto. eapply mem_in; eauto.
Qed.
Lemma intersection_keeps : forall a b t, In t a -> In t b -> In t (intersection eqb a b).
Proof.
  intros a b t A B. unfold intersection. destruct (set_eqb eqb a b); auto. apply filter_In. split; auto. apply mem_in; auto.
Qed.

Lemma flow_narrows : forall es s c, no_any (fst s) -> narrows (fst s) (fst (fst (flow_loop eqb es s c))).
Proof.
  induction es as [|i rest IH]; intros [g done] c N; cbn [flow_loop fst snd] in *; [apply narrows_refl|].
  destruct (nth_error (edges g) i) as [e|]; [|apply narrows_refl].
  destruct (kn_at g (src_slot e)) as [from|] eqn:E1; [|apply narrows_refl].
  destruct (kn_at g (dst_slot e)) as [to|] eqn:E2; [|apply narrows_refl].
  assert (NF: from <> Any) by (intros ->; eapply N; eauto). assert (NT: to <> Any) by (intros ->; eapply N; eauto).
  destruct (edge_effect eqb (e_flow e) from to) eqn:F; try apply narrows_refl.
  - apply (IH (g, done) c N).
  - eapply narrows_trans; [|apply (IH (_, _)); cbn; apply put_no_any; auto]. apply effect_forward in F. destruct F as [F _].
    cbn [fst]. eapply put_narrows; eauto. apply can_flow_narrower; auto.
  - eapply narrows_trans; [|apply (IH (_, _)); cbn; apply put_no_any; auto]. apply effect_back in F. destruct F as [F _].
    cbn [fst]. eapply put_narrows; eauto. apply can_flow_narrower; auto.
Qed.

Lemma intersect_narrows : forall es g c, narrows g (fst (intersect_loop eqb es g c)).
Proof.
  induction es as [|i rest IH]; intros g c; cbn [intersect_loop]; [apply narrows_refl|].
  destruct (nth_error (edges g) i) as [e|]; [|apply narrows_refl].
  destruct (kn_at g (src_slot e)) as [from|] eqn:E1; [|apply narrows_refl].
  destruct (kn_at g (dst_slot e)) as [to|] eqn:E2; [|apply narrows_refl].
  destruct (int eqb from to) as [ts|] eqn:F; [|apply IH].
  apply int_inferred in F. destruct F as (x & y & -> & -> & -> & _).
  assert (L: narrower (Inferred (intersection eqb x y)) (Inferred x)) by (intros t I; apply intersection_both in I; cbn; tauto).
  assert (R: narrower (Inferred (intersection eqb x y)) (Inferred y)) by (intros t I; apply intersection_both in I; cbn; tauto).
  assert (W1: narrows g (put g (src_slot e) (Inferred (intersection eqb x y)))) by (eapply put_narrows; eauto).
  eapply narrows_trans; [exact W1|]. eapply narrows_trans; [|apply IH].
  destruct (slot_eq_dec (src_slot e) (dst_slot e)) as [Q|Q].
  - eapply put_narrows. rewrite <- Q. apply kn_at_put_same. congruence. intros t; auto.
  - eapply put_narrows. rewrite kn_at_put_other by auto. exact E2. exact R.
Qed.

Lemma upgrade_narrows : forall g, narrows g (map_kn (@upgrade_kn T) g).
Proof. intros g. apply map_narrows. intros [|x|x|[|x [|y r]]] t; cbn; auto. Qed.

Lemma resolve_narrows : forall fuel s s' r, no_any (fst s) -> resolve_tg eqb fuel s = Some (s', r) -> narrows (fst s) (fst s').
Proof.
  induction fuel as [|n IH]; intros s s' r N H; cbn [resolve_tg] in H; [discriminate|].
  destruct (intersect_inferred_sets eqb s) as [s1 r1] eqn:E1.
  assert (F1: fst s1 = fst (intersect_loop eqb (pending s) (fst s) false)).
  { unfold intersect_inferred_sets in E1. destruct (intersect_loop eqb (pending s) (fst s) false). inversion E1. reflexivity. }
  assert (N1: no_any (fst s1)) by (rewrite F1; apply intersect_no_any; auto).
  assert (W1: narrows (fst s) (fst s1)) by (rewrite F1; apply intersect_narrows).
  destruct r1; try (inversion H; subst; auto; fail).
  assert (N2: no_any (fst (upgrade s1))) by (apply upgrade_no_any; auto).
  pose proof (flow_narrows (pending (upgrade s1)) (upgrade s1) false N2) as W2.
  assert (N3: no_any (fst (fst (flow_loop eqb (pending (upgrade s1)) (upgrade s1) false)))).
  { generalize (pending (upgrade s1)) false. revert N2. generalize (upgrade s1). clear - eqb_eq. intros s N es. revert s N.
    induction es as [|i rest IH]; intros [g done] N c; cbn [flow_loop fst snd] in *; auto.
    destruct (nth_error (edges g) i) as [e|]; auto. destruct (kn_at g (src_slot e)) as [from|] eqn:E1; auto.
    destruct (kn_at g (dst_slot e)) as [to|] eqn:E2; auto.
    destruct (edge_effect eqb (e_flow e) from to) eqn:F; auto; apply IH; cbn [fst]; auto; apply put_no_any; auto; intros ->; eapply N; eauto. }
  unfold flow_types in H. destruct (flow_loop eqb (pending (upgrade s1)) (upgrade s1) false) as [s2 r2]. cbn [fst] in *.
  assert (W: narrows (fst s) (fst s2)) by (eapply narrows_trans; [exact W1|]; eapply narrows_trans; [apply upgrade_narrows|exact W2]).
  destruct r2 as [[|]| |]; try (inversion H; subst; auto; fail). eapply narrows_trans; [exact W|eapply IH; eauto].
Qed.

Lemma at_slot_narrows : forall g p f, (forall k c k', f k = Ok (c, k') -> narrower k' k) -> narrows g (fst (at_slot g p f)).
Proof.
  intros g p f H. unfold at_slot. destruct (kn_at g p) as [k|] eqn:E; [|apply narrows_refl].
  destruct (f k) as [[c k']| |] eqn:F; try apply narrows_refl. eapply put_narrows; eauto.
Qed.
Lemma set_kn_narrower : forall exp, exp <> Any -> forall k c k', set_kn eqb k exp = Ok (c, k') -> narrower k' k.
Proof.
  intros exp NE k c k' H. unfold set_kn in H. destruct (kn_eqb eqb k exp); [inversion H; subst; intros t; auto|].
  destruct (can_flow eqb exp k) as [[]| |] eqn:F; cbn in H; inversion H; subst. apply can_flow_narrower; auto.
Qed.
Lemma apply_narrows : forall g c, narrowing c -> narrows g (fst (apply_chg eqb g c)).
Proof.
  intros g c NC. destruct c; cbn [apply_chg narrowing] in *; try contradiction.
  1, 2, 4, 5: apply at_slot_narrows; apply set_kn_narrower; discriminate.
  1, 2: apply at_slot_narrows; intros k c k' H; destruct k; cbn in H; inversion H; subst; intros u; auto; cbn; intros I; apply filter_In in I; tauto.
  destruct (has_edge g src dst f); [apply narrows_refl|]. destruct (_ && _); exact (narrows_refl g).
Qed.
Lemma applys_narrows : forall cs g a, Forall (@narrowing T) cs -> narrows g (fst (apply_chgs eqb g cs a)).
Proof.
  induction cs as [|c cs IH]; intros g a F; cbn [apply_chgs]; [apply narrows_refl|]. inversion F; subst.
  pose proof (apply_narrows g c H1) as K. destruct (apply_chg eqb g c) as [g' [b|e|]]; auto.
  eapply narrows_trans; [exact K|apply IH; auto].
Qed.
Lemma link_narrows : forall args g op c, narrows g (fst (link_args g op args c)).
Proof.
  induction args as [|a args IH]; intros g op c; cbn [link_args]; [apply narrows_refl|]. destruct (joined g op a); auto.
  eapply narrows_trans; [|apply IH]. exact (narrows_refl g).
Qed.

Lemma history_narrows : forall xs s, no_any (fst s) -> Forall (@narrowing_c T) xs -> done_ok true s ->
  narrows (fst s) (fst (fst (compile_history eqb s xs))).
Proof.
  induction xs as [|x xs IH]; intros s N F D; cbn [compile_history]; [apply narrows_refl|]. inversion F; subst.
  destruct (history_done true [x] s) as [D' N']; auto. cbn [compile_history] in D', N'.
  assert (W: narrows (fst s) (fst (fst (exec_c eqb s x)))).
  { destruct x; cbn [exec_c].
    - pose proof (applys_narrows cs (fst s) false H1) as K. destruct (apply_chgs eqb (fst s) cs false). exact K.
    - pose proof (link_narrows args (fst s) op false) as K. destruct (link_args (fst s) op args false). exact K.
    - destruct (resolve_tg eqb (S (length (edges (fst s)))) s) as [[s' r]|] eqn:E; [eapply resolve_narrows; eauto|apply narrows_refl]. }
  destruct (exec_c eqb s x) as [s' [u|e|]]; auto. cbn [fst] in *. eapply narrows_trans; [exact W|]. apply IH; auto.
Qed.

Lemma narrow_all : forall xs g, no_any g -> Forall (@narrowing_c T) xs ->
  forall p k', kn_at (fst (fst (compile_history eqb (g, []) xs))) p = Some k' ->
  exists k, kn_at g p = Some k /\ forall t, allows k' t -> allows k t.
Proof. intros xs g N F. apply (history_narrows xs (g, []) N F (start_done true g)). Qed.

(** ** exactly what flows *)
Lemma flow_iff : forall a b, can_flow eqb a b = Ok tt <->
  (exists t, (a = Known t \/ a = Obliged t) /\ allows b t) \/ b = Any \/ (a = Any /\ exists ts, b = Inferred ts) \/
  (exists x y, a = Inferred x /\ b = Inferred y /\ length x = length y /\ incl x y).
Proof.
  intros a b. split.
  - intros H. destruct a as [|x|x|xs], b as [|y|y|ys]; cbn in *; auto; try discriminate.
    + right. right. left. eauto.
    + left. exists x. split; auto. destruct (eqb x y) eqn:E; [apply eqb_eq in E; auto|discriminate].
    + left. exists x. split; auto. destruct (eqb x y) eqn:E; [apply eqb_eq in E; auto|discriminate].
    + left. exists x. split; auto. cbn. destruct (mem eqb x ys) eqn:E; [|discriminate]. eapply mem_in; eauto.
    + left. exists x. split; auto. destruct (eqb x y) eqn:E; [apply eqb_eq in E; auto|discriminate].
    + left. exists x. split; auto. destruct (eqb x y) eqn:E; [apply eqb_eq in E; auto|discriminate].
    + left. exists x. split; auto. cbn. destruct (mem eqb x ys) eqn:E; [|discriminate]. eapply mem_in; eauto.
    + destruct (mem eqb y xs); discriminate.
    + destruct (mem eqb y xs); discriminate.
    + right. right. right. exists xs, ys. destruct (set_eqb eqb xs ys) eqn:E; [|destruct (disjoint eqb xs ys); discriminate].
      repeat split; auto. unfold set_eqb in E. apply andb_true_iff in E. apply Nat.eqb_eq. tauto. apply (set_eqb_incl T eqb eqb_eq); auto.
  - intros [(t & [->| ->] & A)|[ ->|[(-> & ts & ->)|(x & y & -> & -> & L & I)]]].
    + destruct b; cbn in *; auto; subst; rewrite ?(eqb_rfl T eqb eqb_eq); auto. rewrite (proj2 (mem_in T eqb eqb_eq t ts)); auto.
    + destruct b; cbn in *; auto; subst; rewrite ?(eqb_rfl T eqb eqb_eq); auto. rewrite (proj2 (mem_in T eqb eqb_eq t ts)); auto.
    + destruct a; reflexivity.
    + reflexivity.
    + cbn. unfold set_eqb, subset. rewrite L, Nat.eqb_refl. cbn [andb].
      replace (forallb (fun t => mem eqb t y) x) with true; auto. symmetry. apply forallb_forall. intros t It. apply (mem_in T eqb eqb_eq). auto.
Qed.

Lemma flow_unhandled : forall a b, can_flow eqb a b = Panic <->
  (exists t u, a = Obliged t /\ b = Known u /\ t <> u) \/
  (a = Any /\ exists t, b = Known t \/ b = Obliged t) \/
  (exists ts t, a = Inferred ts /\ (b = Known t \/ b = Obliged t) /\ ~ In t ts) \/
  (exists x y t, a = Inferred x /\ b = Inferred y /\ In t x /\ In t y /\ ~ (length x = length y /\ incl x y)).
Proof.
  intros a b. split.
  - intros H. destruct a as [|x|x|xs], b as [|y|y|ys]; cbn in *; try discriminate.
    + right. left. eauto.
    + right. left. eauto.
    + destruct (eqb x y); discriminate.
    + destruct (eqb x y); discriminate.
    + destruct (mem eqb x ys); discriminate.
    + left. exists x, y. repeat split; auto. intros ->. rewrite (eqb_rfl T eqb eqb_eq) in H. discriminate.
    + destruct (eqb x y); discriminate.
    + destruct (mem eqb x ys); discriminate.
    + right. right. left. exists xs, y. repeat split; auto. destruct (mem eqb y xs) eqn:E; [discriminate|]. apply (mem_not T eqb eqb_eq); auto.
    + right. right. left. exists xs, y. repeat split; auto. destruct (mem eqb y xs) eqn:E; [discriminate|]. apply (mem_not T eqb eqb_eq); auto.
    + right. right. right. destruct (set_eqb eqb xs ys) eqn:E; [discriminate|]. destruct (disjoint eqb xs ys) eqn:D; [discriminate|].
      assert (X: exists t, In t xs /\ In t ys).
      { clear - D eqb_eq. unfold disjoint in D. induction xs as [|x r IH]; cbn in D; [discriminate|].
        destruct (mem eqb x ys) eqn:M; cbn in D. exists x. split; cbn; auto. eapply mem_in; eauto.
        destruct (IH D) as (t & A & B). exists t. cbn; auto. }
      destruct X as (t & A & B). exists xs, ys, t. repeat split; auto. intros [L I].
      assert (E': set_eqb eqb xs ys = true); [|congruence].
      unfold set_eqb, subset. rewrite L, Nat.eqb_refl. apply forallb_forall. intros u Iu. apply (mem_in T eqb eqb_eq). auto.
  - intros [(t & u & -> & -> & NE)|[(-> & t & [->| ->])|[(ts & t & -> & [->| ->] & NI)|(x & y & t & -> & -> & A & B & NE)]]]; cbn; auto.
    + destruct (eqb t u) eqn:E; auto. apply eqb_eq in E. congruence.
    + apply (mem_not T eqb eqb_eq) in NI. now rewrite NI.
    + apply (mem_not T eqb eqb_eq) in NI. now rewrite NI.
    + destruct (set_eqb eqb x y) eqn:E.
      * exfalso. apply NE. split. unfold set_eqb in E. apply andb_true_iff in E. apply Nat.eqb_eq. tauto. apply (set_eqb_incl T eqb eqb_eq); auto.
      * destruct (disjoint eqb x y) eqn:D; auto. unfold disjoint in D. rewrite forallb_forall in D. specialize (D t A).
        apply negb_true_iff in D. apply (mem_not T eqb eqb_eq) in D. contradiction.
Qed.
End proofs.
