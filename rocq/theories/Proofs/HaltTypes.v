(** What every change of the type graph makes smaller. *)
From Coq Require Import String List NArith Bool Arith Lia.
From Verif Require Import Model.Base Model.Value Model.Ast Model.Registry Model.AstGraph Model.TyBuild Proofs.TyBuildNodes Proofs.HaltLex Proofs.HaltLocals.
From Verif Require Import Model.TyGraph Spec.TyGraphSpec.
From Verif Require Proofs.TyGraphProofs Proofs.ResolveProofs.
Import ListNotations.

Definition kn_eq_dec : forall a b : tkey, {a = b} + {a <> b}.
Proof. intros a b. destruct (tkey_eqb a b) eqn:E; [left; now apply tkey_eqb_eq|right]. intros ->. assert (tkey_eqb b b = true) by now apply tkey_eqb_eq. congruence. Defined.
Notation dup := (nodup kn_eq_dec).

Section Types.
Variable NB : nat.
Variable told : slot -> bool.
Implicit Types g : tg_t.

(** ** Adding up over the sides of all nodes *)
Fixpoint total (w : slot -> kn tkey -> nat) (l : list (TyGraph.node tkey)) (i : nat) : nat :=
  match l with [] => 0 | n :: l => w (i, In_) (input n) + w (i, Out_) (output n) + total w l (S i) end.
Lemma total_put : forall w l i j s k n, nth_error l j = Some n ->
  total w (upd l j (put_side s k)) i + w (j + i, s) (side_of s n) = total w l i + w (j + i, s) k.
Proof.
  induction l as [|x l IH]; intros i [|j] s k n E; cbn in E; try discriminate.
  - injection E as ->. cbn. destruct s; cbn; lia.
  - cbn [upd total]. specialize (IH (S i) j s k n E). replace (j + S i) with (S j + i) in IH by lia. lia.
Qed.
Lemma put_total : forall w g p k k0, kn_at g p = Some k0 -> total w (nodes (put g p k)) 0 + w p k0 = total w (nodes g) 0 + w p k.
Proof.
  intros w g [j s] k k0 E. unfold kn_at in E. cbn [fst snd] in E. destruct (nth_error (nodes g) j) as [n|] eqn:N; [|discriminate]. injection E as <-.
  pose proof (total_put w (nodes g) 0 j s k n N) as H. replace (j + 0) with j in H by lia. exact H.
Qed.

Definition isopen (p : slot) (k : kn tkey) : nat := match k with Known _ | Obliged _ => 0 | _ => 1 end.
Definition breadth (p : slot) (k : kn tkey) : nat := match k with Inferred ts => S (length (dup ts)) | _ => 0 end.
Definition turned (p : slot) (k : kn tkey) : nat :=
  match k with
  | Known _ => if told p then 0 else 1
  | Obliged _ => if told p then 1 else 0
  | _ => 0
  end.
Definition n_open g := total isopen (nodes g) 0.
Definition n_broad g := total breadth (nodes g) 0.
Definition n_turned g := total turned (nodes g) 0.

Definition flows := [II; OI; OO; IO].
Definition triples : list (nat * nat * flow) := list_prod (list_prod (seq 0 NB) (seq 0 NB)) flows.
Definition absent g (x : nat * nat * flow) : bool := negb (has_edge g (fst (fst x)) (snd (fst x)) (snd x)).
Definition n_absent g := length (filter (absent g) triples).

Definition three g := [n_open g; n_broad g; n_turned g].
Definition tgv (s : state tkey) : list nat := [n_absent (fst s); length (pending s)] ++ three (fst s).

Definition le3 (a b c a' b' c' : nat) : Prop := a < a' \/ (a = a' /\ (b < b' \/ (b = b' /\ c <= c'))).
Definition lt3 (a b c a' b' c' : nat) : Prop := a < a' \/ (a = a' /\ (b < b' \/ (b = b' /\ c < c'))).
Lemma le3_lex : forall a b c a' b' c', le3 a b c a' b' c' -> lexeq [a; b; c] [a'; b'; c'].
Proof.
  unfold le3. intros a b c a' b' c' [H|(-> & [H|(-> & H)])].
  - right. constructor 1; auto.
  - right. constructor 2. constructor 1; auto.
  - apply lex_le; [lia|]. apply lex_le; [lia|]. apply lex_le; [lia|]. apply lexeq_refl.
Qed.
Lemma lt3_lex : forall a b c a' b' c', lt3 a b c a' b' c' -> lex [a; b; c] [a'; b'; c'].
Proof.
  unfold lt3. intros a b c a' b' c' [H|(-> & [H|(-> & H)])].
  - constructor 1; auto.
  - constructor 2. constructor 1; auto.
  - constructor 2. constructor 2. constructor 1; auto.
Qed.
Definition sle p k' k := le3 (isopen p k') (breadth p k') (turned p k') (isopen p k) (breadth p k) (turned p k).
Definition slt p k' k := lt3 (isopen p k') (breadth p k') (turned p k') (isopen p k) (breadth p k) (turned p k).
Lemma put_le : forall g p k k0, kn_at g p = Some k0 -> sle p k k0 -> lexeq (three (put g p k)) (three g).
Proof.
  intros g p k k0 E H. apply le3_lex. pose proof (put_total isopen g p k k0 E). pose proof (put_total breadth g p k k0 E).
  pose proof (put_total turned g p k k0 E). unfold n_open, n_broad, n_turned, sle, le3 in *. lia.
Qed.
Lemma put_lt : forall g p k k0, kn_at g p = Some k0 -> slt p k k0 -> lex (three (put g p k)) (three g).
Proof.
  intros g p k k0 E H. apply lt3_lex. pose proof (put_total isopen g p k k0 E). pose proof (put_total breadth g p k k0 E).
  pose proof (put_total turned g p k k0 E). unfold n_open, n_broad, n_turned, slt, lt3 in *. lia.
Qed.
Lemma sle_refl : forall p k, sle p k k.
Proof. intros. unfold sle, le3. lia. Qed.

Lemma dup_incl : forall a b : list tkey, incl a b -> length (dup a) <= length (dup b).
Proof. intros a b I. apply NoDup_incl_length; [apply NoDup_nodup|]. intros x H. apply nodup_In in H. apply nodup_In. auto. Qed.
Lemma dup_less : forall (a b : list tkey) t, incl a b -> In t b -> ~ In t a -> length (dup a) < length (dup b).
Proof.
  intros a b t I J N. assert (H : length (t :: dup a) <= length (dup b)); [|cbn in H; lia].
  apply NoDup_incl_length.
  - constructor; [now rewrite nodup_In|apply NoDup_nodup].
  - intros x [<-|H]; apply nodup_In; auto. apply nodup_In in H. auto.
Qed.

(** ** Setting what is known *)
Lemma set_step : forall g p x g' b, at_slot g p (fun k => set_kn tkey_eqb k x) = (g', Ok b) ->
  (forall k, kn_at g p = Some k -> k <> x -> can_flow tkey_eqb x k = Ok tt -> slt p x k) ->
  edges g' = edges g /\ lexeq (three g') (three g) /\ (b = true -> lex (three g') (three g)).
Proof.
  intros g p x g' b H S. unfold at_slot in H. destruct (kn_at g p) as [k|] eqn:E.
  - unfold set_kn in H. destruct (kn_eqb tkey_eqb k x) eqn:KE.
    + injection H as <- <-. split; [reflexivity|]. split; [|discriminate]. eapply put_le; eauto. apply sle_refl.
    + destruct (can_flow tkey_eqb x k) as [[]|e|] eqn:F; cbn [rbind] in H; try discriminate. injection H as <- <-.
      assert (L : lex (three (put g p x)) (three g)).
      { eapply put_lt; [exact E|]. apply S; auto. intros ->. destruct x; cbn in KE; try discriminate.
        - now rewrite (proj2 (tkey_eqb_eq t t) eq_refl) in KE.
        - now rewrite (proj2 (tkey_eqb_eq t t) eq_refl) in KE.
        - rewrite (TyGraphProofs.set_eqb_refl tkey tkey_eqb tkey_eqb_eq) in KE. discriminate. }
      split; [reflexivity|]. split; [right; exact L|auto].
  - injection H as <- <-. split; [reflexivity|]. split; [apply lexeq_refl|discriminate].
Qed.
Lemma flow_known : forall t k, can_flow tkey_eqb (Known t) k = Ok tt -> isopen (0, In_) k = 1 \/ k = Known t \/ k = Obliged t.
Proof.
  intros t [|u|u|ts] H; cbn in *; auto; destruct (tkey_eqb t u) eqn:E; try discriminate; apply tkey_eqb_eq in E; subst; auto.
Qed.
Lemma flow_obliged : forall t k, can_flow tkey_eqb (Obliged t) k = Ok tt -> isopen (0, In_) k = 1 \/ k = Known t \/ k = Obliged t.
Proof.
  intros t [|u|u|ts] H; cbn in *; auto; destruct (tkey_eqb t u) eqn:E; try discriminate; apply tkey_eqb_eq in E; subst; auto.
Qed.
Ltac settle := unfold slt, lt3, turned, isopen in *; cbn [snd fst breadth] in *; auto; try lia.

(** Changes that make things smaller whenever they change anything *)
Definition calm (x : chg tkey) : Prop :=
  match x with
  | KnownInput n _ => told (n, In_) = true
  | ObligeInput n _ => told (n, In_) = false
  | KnownOutput n _ => told (n, Out_) = true
  | ObligeOutput n _ => told (n, Out_) = false
  | AnonTy _ => False
  | _ => True
  end.
Lemma three_pending : forall g g' d, edges g' = edges g -> pending (g', d) = pending (g, d).
Proof. intros g g' d E. unfold pending. cbn [fst snd]. now rewrite E. Qed.
Lemma three_absent : forall g g', edges g' = edges g -> n_absent g' = n_absent g.
Proof. intros g g' E. unfold n_absent, absent, has_edge. now rewrite E. Qed.
Lemma tgv_three : forall g g' d, edges g' = edges g -> lexeq (three g') (three g) -> lexeq (tgv (g', d)) (tgv (g, d)).
Proof.
  intros g g' d E L. unfold tgv. rewrite (three_pending g g' d E). cbn [fst]. rewrite (three_absent g g' E). apply lexeq_app; [apply lexeq_refl|reflexivity|exact L].
Qed.
Lemma tgv_three_lt : forall g g' d, edges g' = edges g -> lex (three g') (three g) -> lex (tgv (g', d)) (tgv (g, d)).
Proof.
  intros g g' d E L. unfold tgv. rewrite (three_pending g g' d E). cbn [fst]. rewrite (three_absent g g' E). now apply lex_under.
Qed.

Lemma has_add : forall g a b f x y z, has_edge (add_edge g a b f) x y z = has_edge g x y z || ((a =? x) && (b =? y) && flow_eqb f z).
Proof. intros. unfold has_edge, add_edge. cbn [edges]. rewrite existsb_app. cbn. now rewrite orb_false_r. Qed.
Lemma add_absent : forall g a b f, a < NB -> b < NB -> has_edge g a b f = false -> n_absent (add_edge g a b f) < n_absent g.
Proof.
  intros g a b f A B H. unfold n_absent. apply flt_lt.
  - intros [[x y] z] _. unfold absent. cbn [fst snd]. rewrite has_add. destruct (has_edge g x y z); cbn; auto.
  - exists (a, b, f). unfold absent. cbn [fst snd]. rewrite has_add, H, !Nat.eqb_refl. split; [|split; [reflexivity|destruct f; reflexivity]].
    apply in_prod; [apply in_prod; apply in_seq; lia|]. destruct f; cbn; auto.
Qed.
Lemma absent_tgv : forall s s', n_absent (fst s') < n_absent (fst s) -> lex (tgv s') (tgv s).
Proof. intros s s' H. unfold tgv. cbn [app]. constructor 1; [exact H|reflexivity]. Qed.

Lemma calm_step : forall g x g' b d, length (nodes g) <= NB -> calm x -> apply_chg tkey_eqb g x = (g', Ok b) ->
  lexeq (tgv (g', d)) (tgv (g, d)) /\ (b = true -> lex (tgv (g', d)) (tgv (g, d))).
Proof.
  intros g x g' b d LN C H.
  assert (GEN : edges g' = edges g /\ lexeq (three g') (three g) /\ (b = true -> lex (three g') (three g)) ->
                lexeq (tgv (g', d)) (tgv (g, d)) /\ (b = true -> lex (tgv (g', d)) (tgv (g, d)))).
  { intros (E & L & S). split; [now apply tgv_three|]. intros B. apply tgv_three_lt; auto. }
  destruct x as [n t|n t|n t|n|n t|n t|n t|src dst f|t]; cbn [calm apply_chg] in *; try contradiction.
  - apply GEN. eapply set_step; [exact H|]. intros k _ NE F. apply flow_known in F. destruct F as [F|[->| ->]]; [settle|congruence|]. settle; rewrite C; lia.
  - apply GEN. eapply set_step; [exact H|]. intros k _ NE F. apply flow_obliged in F. destruct F as [F|[->| ->]]; [settle| |congruence]. settle; rewrite C; lia.
  - apply GEN. unfold at_slot in H. destruct (kn_at g (n, In_)) as [k|] eqn:E; [|injection H as <- <-; split; [auto|split; [apply lexeq_refl|discriminate]]].
    destruct k as [|u|u|ts]; cbn in H; injection H as <- <-; (split; [reflexivity|]).
    1, 2, 3: split; [eapply put_le; [exact E|apply sle_refl]|discriminate].
    assert (LE : length (dup (filter (fun x => negb (tkey_eqb t x)) ts)) <= length (dup ts)) by (apply dup_incl; intros x I; apply filter_In in I; tauto).
    split; [eapply put_le; [exact E|unfold sle, le3; cbn; lia]|]. intros M. eapply put_lt; [exact E|]. unfold slt, lt3. cbn [isopen breadth].
    enough (length (dup (filter (fun x => negb (tkey_eqb t x)) ts)) < length (dup ts)) by lia.
    apply dup_less with (t := t); [intros x I; apply filter_In in I; tauto|now apply mem_in|]. intros I. apply filter_In in I. destruct I as (_ & I).
    now rewrite (proj2 (tkey_eqb_eq t t) eq_refl) in I.
  - apply GEN. destruct (kn_at g (n, In_)) as [k|] eqn:E; [|discriminate]. destruct (kn_ty k) as [u|] eqn:K.
    + injection H as <- <-. split; [auto|split; [apply lexeq_refl|discriminate]].
    + eapply set_step; [exact H|]. intros k0 E0 NE F. rewrite E in E0. injection E0 as <-. destruct k as [|u|u|ts]; cbn in F; try discriminate; [congruence|settle].
  - apply GEN. eapply set_step; [exact H|]. intros k _ NE F. apply flow_known in F. destruct F as [F|[->| ->]]; [settle|congruence|]. settle; rewrite C; lia.
  - apply GEN. eapply set_step; [exact H|]. intros k _ NE F. apply flow_obliged in F. destruct F as [F|[->| ->]]; [settle| |congruence]. settle; rewrite C; lia.
  - apply GEN. unfold at_slot in H. destruct (kn_at g (n, Out_)) as [k|] eqn:E; [|injection H as <- <-; split; [auto|split; [apply lexeq_refl|discriminate]]].
    destruct k as [|u|u|ts]; cbn in H; injection H as <- <-; (split; [reflexivity|]).
    1, 2, 3: split; [eapply put_le; [exact E|apply sle_refl]|discriminate].
    assert (LE : length (dup (filter (fun x => negb (tkey_eqb t x)) ts)) <= length (dup ts)) by (apply dup_incl; intros x I; apply filter_In in I; tauto).
    split; [eapply put_le; [exact E|unfold sle, le3; cbn; lia]|]. intros M. eapply put_lt; [exact E|]. unfold slt, lt3. cbn [isopen breadth].
    enough (length (dup (filter (fun x => negb (tkey_eqb t x)) ts)) < length (dup ts)) by lia.
    apply dup_less with (t := t); [intros x I; apply filter_In in I; tauto|now apply mem_in|]. intros I. apply filter_In in I. destruct I as (_ & I).
    now rewrite (proj2 (tkey_eqb_eq t t) eq_refl) in I.
  - destruct (has_edge g src dst f) eqn:E; [injection H as <- <-; split; [apply lexeq_refl|discriminate]|].
    destruct ((src <? length (nodes g)) && (dst <? length (nodes g))) eqn:L; [|discriminate]. injection H as <- <-. apply andb_true_iff in L. destruct L as (L1 & L2).
    apply Nat.ltb_lt in L1, L2. assert (X : lex (tgv (add_edge g src dst f, d)) (tgv (g, d))).
    { apply absent_tgv. cbn [fst]. apply add_absent; [lia|lia|exact E]. }
    split; [now right|auto].
Qed.

(** ** Any change *)
Definition shrinks g g' : Prop := TyGraphProofs.keeps tkey g g' /\ (n_absent g' < n_absent g \/ edges g' = edges g).
Lemma shrinks_refl : forall g, shrinks g g.
Proof. intros g. split; [apply TyGraphProofs.keeps_refl|auto]. Qed.
Lemma shrinks_trans : forall a b c, shrinks a b -> shrinks b c -> shrinks a c.
Proof.
  intros a b c (K1 & E1) (K2 & E2). split; [eapply TyGraphProofs.keeps_trans; eauto|].
  destruct E1 as [E1|E1], E2 as [E2|E2].
  - left. lia.
  - left. now rewrite (three_absent b c E2).
  - left. now rewrite <- (three_absent a b E1).
  - right. congruence.
Qed.
Lemma at_slot_edges : forall g p f g' b, at_slot g p f = (g', Ok b) -> edges g' = @edges tkey g.
Proof. intros g p f g' b H. unfold at_slot in H. destruct (kn_at g p); [|injection H as <- <-; auto]. destruct (f k) as [[c k']|e|]; try discriminate. now injection H as <- <-. Qed.
Lemma any_step : forall g x g' b, length (nodes g) <= NB -> (forall t, x <> AnonTy t) -> apply_chg tkey_eqb g x = (g', Ok b) -> shrinks g g'.
Proof.
  intros g x g' b LN NA H. split; [pose proof (TyGraphProofs.apply_chg_keeps tkey tkey_eqb tkey_eqb_eq g x) as K; now rewrite H in K|].
  destruct x as [n t|n t|n t|n|n t|n t|n t|src dst f|t]; cbn [apply_chg] in H; try (right; eapply at_slot_edges; exact H).
  - right. destruct (kn_at g (n, In_)) as [k|]; [|discriminate]. destruct (kn_ty k); [now injection H as <- <-|]. eapply at_slot_edges; exact H.
  - destruct (has_edge g src dst f) eqn:E; [injection H as <- <-; auto|].
    destruct ((src <? length (nodes g)) && (dst <? length (nodes g))) eqn:L; [|discriminate]. injection H as <- <-. apply andb_true_iff in L. destruct L as (L1 & L2).
    apply Nat.ltb_lt in L1, L2. left. apply add_absent; [lia|lia|exact E].
  - destruct (NA t eq_refl).
Qed.

(** Settled sides stay settled, so open ones become fewer. *)
Lemma total_le : forall w l l' i, length l = length l' ->
  (forall j s n n', nth_error l j = Some n -> nth_error l' j = Some n' -> w (j + i, s) (side_of s n') <= w (j + i, s) (side_of s n)) ->
  total w l' i <= total w l i.
Proof.
  induction l as [|x l IH]; intros [|y l'] i E H; try discriminate; cbn [total]; [lia|].
  pose proof (H 0 In_ x y eq_refl eq_refl). pose proof (H 0 Out_ x y eq_refl eq_refl). cbn [plus side_of] in *.
  assert (total w l' (S i) <= total w l (S i)); [|lia]. apply IH; [now injection E|]. intros j s n n' A B. specialize (H (S j) s n n' A B).
  now replace (j + S i) with (S j + i) by lia.
Qed.
Lemma total_lt : forall w l l' i, length l = length l' ->
  (forall j s n n', nth_error l j = Some n -> nth_error l' j = Some n' -> w (j + i, s) (side_of s n') <= w (j + i, s) (side_of s n)) ->
  (exists j s n n', nth_error l j = Some n /\ nth_error l' j = Some n' /\ w (j + i, s) (side_of s n') < w (j + i, s) (side_of s n)) ->
  total w l' i < total w l i.
Proof.
  induction l as [|x l IH]; intros [|y l'] i E H (j & s & n & n' & A & B & C); try discriminate; [destruct j; discriminate|]. cbn [total].
  pose proof (H 0 In_ x y eq_refl eq_refl). pose proof (H 0 Out_ x y eq_refl eq_refl). cbn [plus side_of] in *.
  assert (T : forall j s n n', nth_error l j = Some n -> nth_error l' j = Some n' -> w (j + S i, s) (side_of s n') <= w (j + S i, s) (side_of s n)).
  { intros j0 s0 n0 n0' A0 B0. specialize (H (S j0) s0 n0 n0' A0 B0). now replace (j0 + S i) with (S j0 + i) by lia. }
  injection E as E. destruct j as [|j].
  - injection A as ->. injection B as ->. pose proof (total_le w l l' (S i) E T). destruct s; cbn [plus side_of] in C; lia.
  - cbn in A, B. assert (total w l' (S i) < total w l (S i)); [|lia]. apply IH; auto. exists j, s, n, n'. replace (j + S i) with (S j + i) by lia. auto.
Qed.
Lemma det_open : forall k : kn tkey, (exists u, TyGraphProofs.det tkey k = Some u) \/ isopen (0, In_) k = 1.
Proof. intros [|u|u|ts]; cbn; eauto. Qed.
Lemma keeps_open : forall g g' p t, TyGraphProofs.keeps tkey g g' -> (exists k, kn_at g p = Some k /\ isopen p k = 1) -> settled g' p t -> n_open g' < n_open g.
Proof.
  intros g g' [j s] t (L & K & _) (k0 & O & O1) S.
  assert (PT : forall q k k', kn_at g q = Some k -> kn_at g' q = Some k' -> isopen q k' <= isopen q k).
  { intros q k k' A B. destruct (det_open k) as [(u & D)|D]. 2: { unfold isopen in *. rewrite D. destruct k'; lia. } 
    assert (Z : settled g q u) by (apply TyGraphProofs.settled_det; eauto). apply K in Z. apply TyGraphProofs.settled_det in Z.
    destruct Z as (k2 & Z1 & Z2). rewrite B in Z1. injection Z1 as <-. destruct k'; cbn in Z2; try discriminate; cbn; lia. }
  apply total_lt; [auto| |].
  - intros i s' n n' A B. apply (PT (i + 0, s')); unfold kn_at; cbn [fst snd]; replace (i + 0) with i by lia; [now rewrite A|now rewrite B].
  - apply TyGraphProofs.settled_det in S. destruct S as (k & S & D). unfold kn_at in O, S. cbn [fst snd] in O, S.
    destruct (nth_error (nodes g) j) as [n|] eqn:A; [|discriminate]. destruct (nth_error (nodes g') j) as [n'|] eqn:B; [|discriminate].
    injection O as O. injection S as S. exists j, s, n, n'. split; [auto|]. split; [auto|]. rewrite O, S. replace (j + 0) with j by lia. rewrite O1. destruct k; cbn in D; try discriminate; cbn; lia.
Qed.
Lemma shrinks_open : forall g g' d p t, shrinks g g' -> (exists k, kn_at g p = Some k /\ isopen p k = 1) -> settled g' p t -> lex (tgv (g', d)) (tgv (g, d)).
Proof.
  intros g g' d p t (K & [E|E]) O S; [now apply absent_tgv|]. apply tgv_three_lt; [auto|]. unfold three. constructor 1; [|reflexivity]. eapply keeps_open; eauto.
Qed.

(** ** Resolution *)
Lemma int_step : forall a b ts p, int tkey_eqb a b = Some ts -> sle p (Inferred ts) a /\ sle p (Inferred ts) b.
Proof.
  intros a b ts p H. apply TyGraphProofs.int_inferred in H. destruct H as (x & y & -> & -> & -> & _).
  assert (I : forall t, In t (intersection tkey_eqb x y) -> In t x /\ In t y) by (apply ResolveProofs.intersection_both; exact tkey_eqb_eq).
  split; unfold sle, le3, turned; cbn [isopen breadth snd];
    (assert (length (dup (intersection tkey_eqb x y)) <= length (dup x) /\ length (dup (intersection tkey_eqb x y)) <= length (dup y))
      by (split; apply dup_incl; intros t J; apply I in J; tauto)); destruct (snd p); lia.
Qed.
Lemma intersect_step : forall es g c, edges (fst (intersect_loop tkey_eqb es g c)) = edges g /\ lexeq (three (fst (intersect_loop tkey_eqb es g c))) (three g).
Proof.
  induction es as [|i rest IH]; intros g c; cbn [intersect_loop]; [split; [reflexivity|apply lexeq_refl]|].
  destruct (nth_error (edges g) i) as [e|]; [|split; [reflexivity|apply lexeq_refl]].
  destruct (kn_at g (src_slot e)) as [from|] eqn:A; [|split; [reflexivity|apply lexeq_refl]].
  destruct (kn_at g (dst_slot e)) as [to|] eqn:B; [|split; [reflexivity|apply lexeq_refl]].
  destruct (int tkey_eqb from to) as [ts|] eqn:I; [|apply IH].
  destruct (IH (put (put g (src_slot e) (Inferred ts)) (dst_slot e) (Inferred ts)) true) as (E & L). split; [rewrite E; reflexivity|].
  eapply lexeq_trans; [exact L|]. destruct (int_step _ _ _ (src_slot e) I) as (S1 & _). destruct (int_step _ _ _ (dst_slot e) I) as (_ & S2).
  eapply lexeq_trans; [|eapply put_le; [exact A|exact S1]].
  destruct (TyGraphProofs.slot_eq_dec (src_slot e) (dst_slot e)) as [Q|Q].
  - eapply put_le; [rewrite <- Q; apply TyGraphProofs.kn_at_put_same; congruence|]. apply sle_refl.
  - eapply put_le; [rewrite TyGraphProofs.kn_at_put_other by auto; exact B|exact S2].
Qed.
Lemma upgrade_cases : forall k : kn tkey, upgrade_kn k = k \/ (exists t, k = Inferred [t] /\ upgrade_kn k = Obliged t).
Proof. intros [|t|t|[|t [|u l]]]; cbn; eauto. Qed.
Lemma upgrade_nodes : forall l i, map (fun n => {| input := @upgrade_kn tkey (input n); output := upgrade_kn (output n) |}) l = l \/
  total isopen (map (fun n => {| input := upgrade_kn (input n); output := upgrade_kn (output n) |}) l) i < total isopen l i.
Proof.
  assert (M : forall k p, isopen p (@upgrade_kn tkey k) <= isopen p k) by (intros [|t|t|[|t [|u l]]] p; cbn; lia).
  assert (ML : forall l i, total isopen (map (fun n => {| input := @upgrade_kn tkey (input n); output := upgrade_kn (output n) |}) l) i <= total isopen l i).
  { induction l as [|n l IH]; intros i; cbn [map total input output]; [lia|]. specialize (IH (S i)). pose proof (M (input n) (i, In_)). pose proof (M (output n) (i, Out_)). lia. }
  induction l as [|n l IH]; intros i; [now left|]. cbn [map total input output]. specialize (ML l (S i)).
  pose proof (M (input n) (i, In_)). pose proof (M (output n) (i, Out_)).
  destruct (upgrade_cases (input n)) as [E1|(t & E1 & E2)].
  - destruct (upgrade_cases (output n)) as [E3|(t & E3 & E4)].
    + destruct (IH (S i)) as [->|L]; [left; rewrite E1, E3; now destruct n|right; lia].
    + right. rewrite E3, E4 in *. cbn [isopen] in *. lia.
  - right. rewrite E1, E2 in *. cbn [isopen] in *. lia.
Qed.
Lemma upgrade_step : forall g, lexeq (three (map_kn (@upgrade_kn tkey) g)) (three g).
Proof.
  intros g. destruct (upgrade_nodes (nodes g) 0) as [E|L].
  - left. unfold three, n_open, n_broad, n_turned, map_kn. cbn [nodes]. now rewrite E.
  - right. unfold three. constructor 1; [exact L|reflexivity].
Qed.
Lemma resolve_step : forall fuel s s' r, resolve_tg tkey_eqb fuel s = Some (s', Ok r) -> lexeq (tgv s') (tgv s).
Proof.
  induction fuel as [|n IH]; intros s s' r H; cbn [resolve_tg] in H; [discriminate|].
  assert (L1 : lexeq (tgv (upgrade (fst (intersect_inferred_sets tkey_eqb s)))) (tgv s)).
  { unfold intersect_inferred_sets. pose proof (intersect_step (pending s) (fst s) false) as (E & L). destruct (intersect_loop tkey_eqb (pending s) (fst s) false) as [g q].
    destruct s as [g0 d]. cbn [fst snd upgrade] in *. eapply lexeq_trans; [|apply tgv_three; eauto]. apply tgv_three; [reflexivity|apply upgrade_step]. }
  destruct (intersect_inferred_sets tkey_eqb s) as [s1 [b|e|]]; try discriminate. cbn [fst] in L1.
  destruct (flow_types tkey_eqb (upgrade s1)) as [s2 [[|]|e|]] eqn:E2; try discriminate.
  - eapply lexeq_trans; [eapply IH; exact H|]. eapply lexeq_trans; [|exact L1]. right.
    pose proof (ResolveProofs.flow_less tkey tkey_eqb _ _ E2) as P. unfold flow_types in E2. apply ResolveProofs.flow_shape in E2. destruct E2 as (E & _).
    unfold tgv. rewrite (three_absent _ _ E). constructor 2. constructor 1; [exact P|reflexivity].
  - injection H as <- <-. unfold flow_types in E2. apply ResolveProofs.flow_shape in E2. destruct E2 as (_ & l & _ & _ & _ & E). destruct (E eq_refl) as (_ & _ & ->). exact L1.
Qed.

(** ** Links *)
Lemma link_step : forall args g op c g' b, link_args g op args c = (g', b) -> op < NB -> Forall (fun a => a < NB) args ->
  length (nodes g') = length (nodes g) /\ (b = c /\ g' = g \/ b = true /\ n_absent g' < n_absent g).
Proof.
  induction args as [|a args IH]; intros g op c g' b H O F; cbn [link_args] in H; [injection H as <- <-; auto|].
  apply Forall_cons_iff in F. destruct F as (Fa & F). destruct (joined g op a) eqn:J; [now apply IH with (1 := H)|].
  apply IH in H; auto. destruct H as (L & H). split; [exact L|]. right.
  assert (X : n_absent (add_edge g op a II) < n_absent g).
  { apply add_absent; auto. unfold joined in J. unfold has_edge. destruct (existsb _ (edges g)) eqn:E in |- *; [|reflexivity]. exfalso.
    apply existsb_exists in E. destruct E as (x & I & E). apply andb_true_iff in E. destruct E as (E & _).
    assert (existsb (fun e => (e_from e =? op) && (e_to e =? a)) (edges g) = true) by (apply existsb_exists; eauto). congruence. }
  destruct H as [(-> & ->)|(-> & H)]; [auto|]. split; [auto|lia].
Qed.
End Types.
