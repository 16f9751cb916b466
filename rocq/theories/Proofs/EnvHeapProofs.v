(** Clones of environments are private. *)
From Coq Require Import String List ZArith NArith Bool Lia Arith.
From Verif Require Import Model.Base Model.Value Model.Exec Model.EnvHeap Spec.EnvSpec.
Import ListNotations.
Set Implicit Arguments.

(** ** Lists *)
Lemma upd_len {A} (f : A -> A) l : forall i, length (upd_nth i f l) = length l.
Proof. induction l as [|x l IH]; intros [|i]; cbn; auto. Qed.
Lemma upd_eq {A} (f : A -> A) l : forall i x, nth_error l i = Some x -> nth_error (upd_nth i f l) i = Some (f x).
Proof. induction l as [|y l IH]; intros [|i] x H; cbn in *; try discriminate; [injection H as <-|]; auto. Qed.
Lemma upd_neq {A} (f : A -> A) l : forall i j, i <> j -> nth_error (upd_nth i f l) j = nth_error l j.
Proof. induction l as [|y l IH]; intros [|i] [|j] H; cbn; auto; congruence. Qed.
Lemma upd_place {A} (x : A) l : forall i, i < length l -> upd_nth i (fun _ => x) l = place i x l.
Proof.
  induction l as [|y l IH]; intros [|i] H; cbn in *; try lia; auto. unfold place. cbn. f_equal. apply IH. lia.
Qed.
Lemma place_len {A} (x : A) l i : i < length l -> length (place i x l) = length l.
Proof. intro H. rewrite <- upd_place by auto. apply upd_len. Qed.
Lemma place_eq {A} (x : A) l i : i < length l -> nth_error (place i x l) i = Some x.
Proof.
  intro H. rewrite <- upd_place by auto. destruct (nth_error l i) as [y|] eqn:E.
  - exact (upd_eq (fun _ => x) _ _ E).
  - apply nth_error_None in E. lia.
Qed.
Lemma place_neq {A} (x : A) l i j : i < length l -> i <> j -> nth_error (place i x l) j = nth_error l j.
Proof. intros H N. rewrite <- upd_place by auto. apply upd_neq. auto. Qed.
Lemma put_place v e : forall i, put i v e = if Nat.ltb i (length e) then Some (place i v e) else None.
Proof.
  induction e as [|x e IH]; intros [|i]; cbn [put length]; auto.
  rewrite IH. change (Nat.ltb (S i) (S (length e))) with (Nat.ltb i (length e)).
  destruct (Nat.ltb i (length e)); auto.
Qed.

(** ** Owners *)
Definition at_addr (a : addr) (o : option handle) : bool := match o with Some h => Nat.eqb (h_addr h) a | None => false end.
Definition one (b : bool) : nat := if b then 1 else 0.
Lemma owners_app a l o : owners a (l ++ [o]) = owners a l + one (at_addr a o).
Proof.
  unfold owners. rewrite filter_app, app_length. cbn. fold (at_addr a o).
  change (match o with Some h => h_addr h =? a | None => false end) with (at_addr a o).
  destruct (at_addr a o); auto.
Qed.
Lemma owners_cons a o l : owners a (o :: l) = one (at_addr a o) + owners a l.
Proof.
  unfold owners. cbn [filter]. change (match o with Some h => h_addr h =? a | None => false end) with (at_addr a o).
  destruct (at_addr a o); auto.
Qed.
Lemma owners_set a l : forall h o x, nth_error l h = Some o ->
  owners a (set_handle h x l) + one (at_addr a o) = owners a l + one (at_addr a x).
Proof.
  induction l as [|y l IH]; intros [|h] o x H; cbn in H; try discriminate; unfold set_handle in *; cbn [upd_nth].
  - injection H as <-. rewrite !owners_cons. lia.
  - rewrite !owners_cons. specialize (IH h o x H). lia.
Qed.
Lemma owners_in a l h o : nth_error l h = Some o -> at_addr a o = true -> owners a l > 0.
Proof.
  revert h. induction l as [|y l IH]; intros [|h] H E; cbn in H; try discriminate; rewrite owners_cons.
  - injection H as ->. rewrite E. cbn. lia.
  - specialize (IH h H E). lia.
Qed.
Lemma owners_two a l h h' o o' : nth_error l h = Some o -> nth_error l h' = Some o' -> h <> h' ->
  at_addr a o = true -> at_addr a o' = true -> owners a l >= 2.
Proof.
  revert h h'. induction l as [|y l IH]; intros [|h] [|h'] H H' N E E'; cbn in H, H'; try discriminate; try lia;
    rewrite owners_cons.
  - injection H as ->. rewrite E. cbn. assert (X := owners_in _ _ _ H' E'). lia.
  - injection H' as ->. rewrite E'. cbn. assert (X := owners_in _ _ _ H E). lia.
  - assert (X := IH h h' H H'). rewrite Nat.add_comm. specialize (X ltac:(lia) E E'). lia.
Qed.

(** ** The invariant *)
Definition phase_ok (c : cell) (p : phase) : Prop :=
  match p with
  | PStart => True
  | PChecked u => u = true -> c_strong c = 1
  | PCopy acc => acc = firstn (length acc) (c_data c) /\ length acc <= length (c_data c)
  | PReady => c_strong c = 1
  end.
Definition busy_ok (c : cell) (b : option (nat * value * phase)) (q : option (nat * value)) : Prop :=
  match b, q with
  | None, None => True
  | Some (i, v, ph), Some (i', v') => i = i' /\ v = v' /\ phase_ok c ph
  | _, _ => False
  end.
Definition rel (hp : heap) (o : option handle) (q : option (list value * option (nat * value))) : Prop :=
  match o, q with
  | None, None => True
  | Some hd, Some (c, pend) =>
      exists cl, nth_error hp (h_addr hd) = Some cl /\ c_data cl = c /\ busy_ok cl (h_busy hd) pend
  | _, _ => False
  end.
Record Inv (m : machine) (p : private) : Prop := {
  i_len : length (m_handles m) = length p;
  i_rel : forall h o q, nth_error (m_handles m) h = Some o -> nth_error p h = Some q -> rel (m_heap m) o q;
  i_cnt : forall a c, nth_error (m_heap m) a = Some c -> c_strong c = owners a (m_handles m) /\ c_weak c = 0 }.

(** about to write into the cell as it is *)
Definition claims (hd : handle) : bool :=
  match h_busy hd with Some (_, _, PReady) | Some (_, _, PChecked true) => true | _ => false end.
Definition stays (hp hp' : heap) (hd : handle) : Prop :=
  forall c, nth_error hp (h_addr hd) = Some c -> exists c', nth_error hp' (h_addr hd) = Some c' /\ c_data c' = c_data c /\
    (claims hd = true -> c_strong c = 1 -> c_strong c' = 1).
Lemma rel_stays hp hp' o q : (forall hd, o = Some hd -> stays hp hp' hd) -> rel hp o q -> rel hp' o q.
Proof.
  intros S. unfold rel. destruct o as [hd|], q as [[c pend]|]; auto. intros (cl & E & D & B).
  destruct (S hd eq_refl cl E) as (cl' & E' & D' & One). exists cl'. split; auto. split; [congruence|].
  unfold busy_ok, claims in *. destruct (h_busy hd) as [[[i v] ph]|], pend as [[i' v']|]; auto.
  destruct B as (-> & -> & B). repeat split; auto. unfold phase_ok in *.
  destruct ph as [|u|acc|]; auto.
  - intros ->. auto.
  - rewrite D'. auto.
Qed.

Lemma inv_start : Inv start [].
Proof.
  split; cbn; auto; intros; match goal with H : nth_error [] ?i = _ |- _ => destruct i; discriminate H end.
Qed.

(** a handle in the machine has its counterpart *)
Lemma inv_at m p h hd : Inv m p -> nth_error (m_handles m) h = Some (Some hd) ->
  exists c pend cl, nth_error p h = Some (Some (c, pend)) /\ nth_error (m_heap m) (h_addr hd) = Some cl /\
    c_data cl = c /\ busy_ok cl (h_busy hd) pend /\ c_strong cl = owners (h_addr hd) (m_handles m) /\ c_weak cl = 0.
Proof.
  intros I H. destruct (nth_error p h) as [q|] eqn:E.
  - assert (R := i_rel I _ H E). unfold rel in R. destruct q as [[c pend]|]; [|easy].
    destruct R as (cl & E1 & D & B). exists c, pend, cl. destruct (i_cnt I _ E1). repeat split; auto.
  - apply nth_error_None in E. rewrite <- (i_len I) in E. apply nth_error_None in E. congruence.
Qed.
Lemma inv_lt m p h o : Inv m p -> nth_error (m_handles m) h = Some o -> h < length p.
Proof. intros I H. rewrite <- (i_len I). apply nth_error_Some. rewrite H. discriminate. Qed.

(** a new handle on a cell *)
Lemma inv_add m p hp' a c : Inv m p ->
  (exists cl, nth_error hp' a = Some cl /\ c_data cl = c) ->
  (forall b cl, nth_error hp' b = Some cl ->
     c_strong cl = owners b (m_handles m) + one (Nat.eqb a b) /\ c_weak cl = 0) ->
  (forall h hd, nth_error (m_handles m) h = Some (Some hd) -> stays (m_heap m) hp' hd) ->
  Inv (Machine hp' (m_handles m ++ [Some (Handle a None)])) (p ++ [Some (c, None)]).
Proof.
  intros I (cl & E & D) C St. split; cbn [m_heap m_handles].
  - rewrite !app_length, (i_len I). reflexivity.
  - intros h o q Ho Hq.
    destruct (Nat.lt_ge_cases h (length p)) as [L|L].
    + rewrite nth_error_app1 in Ho by (rewrite (i_len I); auto). rewrite nth_error_app1 in Hq by auto.
      eapply rel_stays; [|eapply (i_rel I); eauto]. intros hd ->. eauto.
    + rewrite nth_error_app2 in Ho by (rewrite (i_len I); auto). rewrite nth_error_app2 in Hq by auto.
      rewrite (i_len I) in Ho. destruct (h - length p) as [|k]; cbn in Ho, Hq; [|destruct k; discriminate].
      injection Ho as <-. injection Hq as <-. exists cl. cbn. auto.
  - intros b cl' Hb. rewrite owners_app. cbn [at_addr h_addr]. auto.
Qed.

(** changing one handle and the heap *)
Lemma inv_upd m p hp' h o x q : Inv m p -> nth_error (m_handles m) h = Some o ->
  rel hp' x q ->
  (forall b cl, nth_error hp' b = Some cl -> c_strong cl + one (at_addr b o) = owners b (m_handles m) + one (at_addr b x) /\ c_weak cl = 0) ->
  (forall h' hd, h' <> h -> nth_error (m_handles m) h' = Some (Some hd) -> stays (m_heap m) hp' hd) ->
  Inv (Machine hp' (set_handle h x (m_handles m))) (place h q p).
Proof.
  intros I Ho R C St. assert (Lp := inv_lt _ I Ho). split; cbn [m_heap m_handles].
  - unfold set_handle. rewrite upd_len, place_len, (i_len I); auto.
  - intros h' o' q' Ho' Hq'. destruct (Nat.eq_dec h h') as [<-|N].
    + unfold set_handle in Ho'. rewrite (upd_eq (fun _ => x) _ _ Ho) in Ho'. injection Ho' as <-.
      rewrite place_eq in Hq' by auto. injection Hq' as <-. exact R.
    + unfold set_handle in Ho'. rewrite upd_neq in Ho' by auto. rewrite place_neq in Hq' by auto.
      eapply rel_stays; [|eapply (i_rel I); eauto]. intros hd ->. eapply St; eauto.
  - intros b cl Hb. destruct (C b cl Hb) as [C1 C2]. assert (X := owners_set b _ _ x Ho). split; [lia|auto].
Qed.
(** only the phase changes *)
Lemma inv_phase m p h o x q : Inv m p -> nth_error (m_handles m) h = Some o -> nth_error p h = Some q ->
  rel (m_heap m) x q -> (forall b, at_addr b x = at_addr b o) ->
  Inv (Machine (m_heap m) (set_handle h x (m_handles m))) p.
Proof.
  intros I Ho Hq R A. assert (Lp := inv_lt _ I Ho).
  assert (Ep : place h q p = p).
  { rewrite <- upd_place by auto. clear - Hq. revert h Hq. induction p as [|y p IH]; intros [|h] H; cbn in *; try discriminate; auto.
    - injection H as ->. auto.
    - f_equal. auto. }
  rewrite <- Ep. eapply inv_upd; eauto.
  - intros b cl Hb. rewrite A. destruct (i_cnt I _ Hb). split; lia.
  - intros h' hd N H c E. exists c. auto.
Qed.

Lemma stays_refl hp hd : stays hp hp hd.
Proof. intros c E. exists c. auto. Qed.
Lemma stays_app hp l hd : stays hp (hp ++ l) hd.
Proof. intros c E. exists c. split; auto. rewrite nth_error_app1; auto. apply nth_error_Some. rewrite E. discriminate. Qed.
Lemma stays_upd f hp hd b : h_addr hd <> b -> stays hp (upd_nth b f hp) hd.
Proof. intros N c E. exists c. split; auto. rewrite upd_neq; auto. Qed.
Lemma stays_trans hp1 hp2 hp3 hd : stays hp1 hp2 hd -> stays hp2 hp3 hd -> stays hp1 hp3 hd.
Proof.
  intros S1 S2 c E. destruct (S1 c E) as (c2 & E2 & D2 & O2). destruct (S2 c2 E2) as (c3 & E3 & D3 & O3).
  exists c3. repeat split; auto. congruence.
Qed.

Lemma upd_same {A} (p : list A) : forall h q, nth_error p h = Some q -> upd_nth h (fun _ => q) p = p.
Proof.
  induction p as [|y p IH]; intros [|h] q H; cbn in *; try discriminate; [injection H as ->; auto|]. f_equal. auto.
Qed.
Lemma no_owners m p : Inv m p -> owners (length (m_heap m)) (m_handles m) = 0.
Proof.
  intros I. destruct (owners (length (m_heap m)) (m_handles m)) eqn:Eo; auto. exfalso.
  unfold owners in Eo. match type of Eo with length ?l = _ => destruct l as [|x l'] eqn:El end; [discriminate|].
  assert (Hx : In x (x :: l')) by (left; auto). rewrite <- El in Hx. apply filter_In in Hx. destruct Hx as [Hx1 Hx2].
  destruct x as [hd|]; [|discriminate]. apply Nat.eqb_eq in Hx2. apply In_nth_error in Hx1. destruct Hx1 as [j Hj].
  destruct (inv_at _ I Hj) as (c & pend & cl & _ & Hc & _). rewrite Hx2 in Hc.
  assert (length (m_heap m) < length (m_heap m)) by (apply nth_error_Some; rewrite Hc; discriminate). lia.
Qed.

(** a handle that claims its cell is alone there *)
Lemma claims_alone m p h hd h' hd' : Inv m p -> nth_error (m_handles m) h = Some (Some hd) ->
  nth_error (m_handles m) h' = Some (Some hd') -> h <> h' -> h_addr hd = h_addr hd' -> claims hd = false.
Proof.
  intros I H H' N E. destruct (claims hd) eqn:C; auto. exfalso.
  destruct (inv_at _ I H) as (c & pend & cl & _ & Hc & D & B & C1 & _).
  assert (X := @owners_two (h_addr hd) _ _ _ _ _ H H' N). cbn in X. rewrite E, Nat.eqb_refl in X. specialize (X eq_refl eq_refl).
  unfold claims in C. unfold busy_ok in B. destruct (h_busy hd) as [[[i v] ph]|]; [|discriminate].
  destruct pend as [[i' v']|]; [|easy]. destruct B as (_ & _ & B). rewrite E in C1.
  destruct ph as [|[|]| |]; cbn in B; try discriminate; [specialize (B eq_refl)|]; lia.
Qed.
(** changing the count of a cell others may be on *)
Lemma stays_count m p h hd h' hd' f : Inv m p -> (forall c, c_data (f c) = c_data c) ->
  nth_error (m_handles m) h = Some (Some hd) -> nth_error (m_handles m) h' = Some (Some hd') ->
  h <> h' \/ claims hd = false ->
  stays (m_heap m) (upd_nth (h_addr hd') f (m_heap m)) hd.
Proof.
  intros I Hf H H' Q. destruct (Nat.eq_dec (h_addr hd) (h_addr hd')) as [Ea|N]; [|apply stays_upd; auto].
  intros c E. rewrite <- Ea. eexists. split; [apply upd_eq; exact E|]. split; [apply Hf|].
  intro C. destruct (Nat.eq_dec h h') as [<-|N]; [destruct Q; congruence|].
  rewrite (@claims_alone m p h hd h' hd' I H H' N Ea) in C. discriminate.
Qed.

Lemma idle_p m p h a : Inv m p -> nth_error (m_handles m) h = Some (Some (Handle a None)) ->
  exists c cl, nth_error p h = Some (Some (c, None)) /\ nth_error (m_heap m) a = Some cl /\ c_data cl = c /\
    c_strong cl = owners a (m_handles m) /\ c_weak cl = 0.
Proof.
  intros I H. destruct (inv_at _ I H) as (c & pend & cl & Hp & Hc & D & B & C1 & C2). cbn in *.
  destruct pend as [[]|]; [easy|]. exists c, cl. auto.
Qed.
Lemma not_idle_p m p h : Inv m p ->
  match nth_error (m_handles m) h with Some (Some (Handle a None)) => Some a | _ => None end = None -> ~ is_idle p h.
Proof.
  intros I H (c & Hp).
  destruct (nth_error (m_handles m) h) as [[[a b]|]|] eqn:E.
  - destruct (inv_at _ I E) as (c' & pend & cl & Hp' & Hc & D & B & _). rewrite Hp in Hp'. injection Hp' as <- <-.
    cbn in B. destruct b as [[[i v] ph]|]; [easy|discriminate].
  - assert (R := i_rel I _ E Hp). exact R.
  - apply nth_error_None in E. rewrite (i_len I) in E. apply nth_error_None in E. congruence.
Qed.

Lemma occur_ok m p e m' o : Inv m p -> occur m e = (m', o) -> exists p', allowed p e o p' /\ Inv m' p'.
Proof.
  intros I E. destruct e as [n|h|h|h i|h i v|h]; cbn [occur] in E.
  - (* new *)
    cbn [alloc] in E. injection E as <- <-. rewrite (i_len I).
    eexists. split; [apply al_new|]. apply inv_add; auto.
    + exists (Cell (env_new n) 1 0). split; auto. rewrite nth_error_app2, Nat.sub_diag; auto.
    + intros b cl Hb. destruct (Nat.lt_ge_cases b (length (m_heap m))) as [L|L].
      * rewrite nth_error_app1 in Hb by auto. destruct (i_cnt I _ Hb). split; auto.
        destruct (Nat.eqb_spec (length (m_heap m)) b); cbn; lia.
      * rewrite nth_error_app2 in Hb by auto. destruct (b - length (m_heap m)) as [|k] eqn:Ek; cbn in Hb; [|destruct k; discriminate].
        injection Hb as <-. cbn. split; auto. assert (b = length (m_heap m)) as -> by lia. rewrite Nat.eqb_refl.
        rewrite (no_owners I). reflexivity.
    + intros h hd H. apply stays_app.
  - (* clone *)
    destruct (nth_error (m_handles m) h) as [[[a [b|]]|]|] eqn:Eh;
      try (injection E as <- <-; exists p; split; auto; apply al_never with h; [auto|eapply not_idle_p; [exact I|rewrite Eh; reflexivity]]).
    injection E as <- <-. rewrite (i_len I). destruct (idle_p _ I Eh) as (c & cl & Hp & Hc & D & C1 & C2).
    eexists. split; [apply al_clone; exact Hp|]. apply inv_add; auto.
    + eexists. split; [apply upd_eq; exact Hc|]. auto.
    + intros b cl' Hb. unfold inc in Hb. destruct (Nat.eqb_spec a b) as [<-|N].
      * rewrite (upd_eq _ _ _ Hc) in Hb. injection Hb as <-. cbn. split; auto. lia.
      * rewrite upd_neq in Hb by auto. destruct (i_cnt I _ Hb). cbn. split; auto. lia.
    + intros h' hd H'. apply (@stays_count m p h' hd h (Handle a None)); auto.
      destruct (Nat.eq_dec h' h) as [->|]; auto. rewrite Eh in H'. injection H' as <-. auto.
  - (* drop *)
    destruct (nth_error (m_handles m) h) as [[[a [b|]]|]|] eqn:Eh;
      try (injection E as <- <-; exists p; split; auto; apply al_never with h; [auto|eapply not_idle_p; [exact I|rewrite Eh; reflexivity]]).
    injection E as <- <-. destruct (idle_p _ I Eh) as (c & cl & Hp & Hc & D & C1 & C2).
    eexists. split; [apply al_drop; exists c; exact Hp|]. eapply inv_upd; eauto.
    + exact Logic.I.
    + intros b cl' Hb. cbn [at_addr h_addr]. unfold dec in Hb. destruct (Nat.eqb_spec a b) as [<-|N].
      * rewrite (upd_eq _ _ _ Hc) in Hb. injection Hb as <-. cbn. split; auto.
        assert (X := owners_in a _ _ Eh). cbn in X. rewrite Nat.eqb_refl in X. specialize (X eq_refl). lia.
      * rewrite upd_neq in Hb by auto. destruct (i_cnt I _ Hb). cbn. split; auto.
    + intros h' hd N H'. apply (@stays_count m p h' hd h (Handle a None)); auto.
  - (* fetch *)
    destruct (nth_error (m_handles m) h) as [[[a [b|]]|]|] eqn:Eh;
      try (injection E as <- <-; exists p; split; auto; apply al_never with h; [eauto|eapply not_idle_p; [exact I|rewrite Eh; reflexivity]]).
    destruct (idle_p _ I Eh) as (c & cl & Hp & Hc & D & C1 & C2). unfold cell_at in E. rewrite Hc, D in E.
    destruct (nth_error c i) as [v|] eqn:Ei; injection E as <- <-; exists p; split; auto.
    + eapply al_fetch; eauto.
    + eapply al_fetch_out; eauto. apply nth_error_None. auto.
  - (* begin *)
    destruct (nth_error (m_handles m) h) as [[[a [b|]]|]|] eqn:Eh;
      try (injection E as <- <-; exists p; split; auto; apply al_never with h; [eauto 6|eapply not_idle_p; [exact I|rewrite Eh; reflexivity]]).
    injection E as <- <-. destruct (idle_p _ I Eh) as (c & cl & Hp & Hc & D & C1 & C2).
    eexists. split; [eapply al_begin; exact Hp|]. eapply inv_upd; eauto.
    + exists cl. cbn. auto.
    + intros b cl' Hb. destruct (i_cnt I _ Hb). split; [|auto]. cbn. lia.
    + intros h' hd N H'. apply stays_refl.
  - (* step *)
    destruct (nth_error (m_handles m) h) as [[[a [[[i v] ph]|]]|]|] eqn:Eh;
      try (injection E as <- <-; exists p; split; auto; apply al_never_step; intros (c & iv & Hp);
           first [destruct (idle_p _ I Eh) as (c' & cl & Hp' & _); congruence
                 |assert (R := i_rel I _ Eh Hp); exact R
                 |apply nth_error_None in Eh; rewrite (i_len I) in Eh; apply nth_error_None in Eh; congruence]).
    destruct (inv_at _ I Eh) as (c & pend & cl & Hp & Hc & D & B & C1 & C2). cbn [h_addr h_busy] in *.
    unfold busy_ok in B. destruct pend as [[i' v']|]; [|easy]. destruct B as (<- & <- & B).
    assert (BP : is_busy p h) by (exists c, (i, v); auto).
    unfold step_set in E. unfold cell_at in E. rewrite Hc in E.
    assert (PH : forall ph', phase_ok cl ph' ->
      exists p', allowed p (EStep h) OPending p' /\
        Inv (Machine (m_heap m) (set_handle h (Some (Handle a (Some (i, v, ph')))) (m_handles m))) p').
    { intros ph' Hph. exists p. split; [apply al_wait; auto|]. eapply inv_phase; [exact I|exact Eh|exact Hp| |reflexivity].
      exists cl. cbn. auto. }
    destruct ph as [|[|]|acc|].
    + injection E as <- <-. apply PH. cbn. unfold uniq. intro U. apply andb_true_iff in U. destruct U as [_ U].
      apply Nat.eqb_eq in U. exact U.
    + injection E as <- <-. apply PH. cbn in B |- *. auto.
    + injection E as <- <-. apply PH. cbn. split; auto. lia.
    + cbn in B. destruct B as [B1 B2]. destruct (nth_error (c_data cl) (length acc)) as [x|] eqn:Ex.
      * injection E as <- <-. apply PH. cbn. rewrite app_length. cbn.
        assert (length acc < length (c_data cl)) by (apply nth_error_Some; rewrite Ex; discriminate).
        split; [|lia]. rewrite Nat.add_1_r.
        assert (F : forall (l : list value) n y, nth_error l n = Some y -> firstn (S n) l = firstn n l ++ [y]).
        { clear. induction l as [|z l IH]; intros [|n] y H; cbn in *; try discriminate; auto.
          - injection H as ->. auto.
          - f_equal. apply IH. auto. }
        rewrite (F _ _ _ Ex). congruence.
      * (* the copy is finished *)
        cbn [alloc] in E. injection E as <- <-. exists p. split; [apply al_wait; auto|].
        apply nth_error_None in Ex. assert (EA : acc = c) by (rewrite B1, firstn_all2 by lia; auto).
        assert (La : a < length (m_heap m)) by (apply nth_error_Some; rewrite Hc; discriminate).
        assert (New : nth_error (dec a (m_heap m ++ [Cell acc 1 0])) (length (m_heap m)) = Some (Cell acc 1 0)).
        { unfold dec. rewrite upd_neq by lia. rewrite nth_error_app2, Nat.sub_diag by auto. reflexivity. }
        rewrite <- (upd_same p h Hp). rewrite upd_place by (eapply inv_lt; eauto). eapply inv_upd; eauto.
        -- exists (Cell acc 1 0). cbn. rewrite New. auto.
        -- intros b cl' Hb. cbn [at_addr h_addr]. destruct (Nat.eq_dec b (length (m_heap m))) as [->|Nb].
           ++ rewrite New in Hb. injection Hb as <-. rewrite Nat.eqb_refl. cbn. rewrite (no_owners I). split; auto.
              destruct (Nat.eqb_spec a (length (m_heap m))); cbn; lia.
           ++ unfold dec in Hb. destruct (Nat.eqb_spec a b) as [<-|N].
              ** assert (Hc' : nth_error (m_heap m ++ [Cell acc 1 0]) a = Some cl) by (rewrite nth_error_app1; auto).
                 rewrite (upd_eq _ _ _ Hc') in Hb. injection Hb as <-. cbn. split; auto.
                 assert (X := owners_in a _ _ Eh). cbn in X. rewrite Nat.eqb_refl in X. specialize (X eq_refl).
                 destruct (Nat.eqb_spec (length (m_heap m)) a); cbn; lia.
              ** rewrite upd_neq in Hb by auto.
                 assert (b < length (m_heap m)).
                 { assert (b < length (m_heap m ++ [Cell acc 1 0])) by (apply nth_error_Some; rewrite Hb; discriminate).
                   rewrite app_length in *. cbn in *. lia. }
                 rewrite nth_error_app1 in Hb by auto. destruct (i_cnt I _ Hb). split; auto.
                 destruct (Nat.eqb_spec (length (m_heap m)) b); cbn; lia.
        -- intros h' hd N H'. eapply stays_trans; [apply (stays_app _ [Cell acc 1 0])|].
           destruct (Nat.eq_dec (h_addr hd) a) as [Ea|Na]; [|apply stays_upd; auto].
           intros c' E'. rewrite Ea in *. eexists. split; [apply upd_eq; exact E'|]. split; [reflexivity|].
           intro Cl. rewrite (claims_alone I H' Eh N Ea) in Cl. discriminate.
    + (* the write *)
      cbn in B.
      assert (G : get_mut cl = true) by (unfold get_mut; rewrite B, C2; reflexivity). rewrite G in E.
      rewrite put_place, D in E. destruct (Nat.ltb_spec i (length c)) as [L|L]; injection E as <- <-.
      * eexists. split; [eapply al_done; eauto|]. eapply inv_upd; eauto.
        -- eexists. cbn [h_addr]. unfold write. split; [apply upd_eq; exact Hc|]. cbn. auto.
        -- intros b cl' Hb. cbn [at_addr h_addr]. unfold write in Hb. destruct (Nat.eqb_spec a b) as [<-|N].
           ++ rewrite (upd_eq _ _ _ Hc) in Hb. injection Hb as <-. cbn. split; auto.
           ++ rewrite upd_neq in Hb by auto. destruct (i_cnt I _ Hb). cbn. split; auto.
        -- intros h' hd N H'. apply stays_upd. intro Ea.
           assert (X := claims_alone I Eh H' (not_eq_sym N) (eq_sym Ea)). discriminate X.
      * eexists. split; [eapply al_out; eauto|]. eapply inv_upd; eauto.
        -- exists cl. cbn. auto.
        -- intros b cl' Hb. destruct (i_cnt I _ Hb). split; auto.
        -- intros h' hd N H'. apply stays_refl.
Qed.

Lemma happen_ok es : forall m p, Inv m p -> exists p', allowed_all p (snd (happen m es)) p' /\ Inv (fst (happen m es)) p'.
Proof.
  induction es as [|e es IH]; intros m p I; cbn [happen].
  - exists p. split; [constructor|auto].
  - destruct (occur m e) as [m1 o] eqn:E. destruct (occur_ok _ I E) as (p1 & A & I1).
    destruct (IH m1 p1 I1) as (p2 & A2 & I2). destruct (happen m1 es) as [m2 tr]. cbn in *.
    exists p2. split; auto. econstructor; eauto.
Qed.

Lemma happen_weak es a c : nth_error (m_heap (fst (happen start es))) a = Some c -> uniq c = false.
Proof.
  intros H. destruct (happen_ok es inv_start) as (p & _ & I). destruct (i_cnt I _ H) as [_ E]. unfold uniq. rewrite E. reflexivity.
Qed.
Lemma happen_counts es a c : let m := fst (happen start es) in
  nth_error (m_heap m) a = Some c -> c_strong c = owners a (m_handles m).
Proof. intros m H. destruct (happen_ok es inv_start) as (p & _ & I). apply (i_cnt I _ H). Qed.

(** ** Writes finish *)
Definition rest (len : nat) (ph : phase) : nat :=
  match ph with PStart => len + 4 | PChecked true => 2 | PChecked false => len + 3 | PCopy acc => 2 + (len - length acc) | PReady => 1 end.

Lemma others_keep m p e m' o h a b c pend : Inv m p -> occur m e = (m', o) -> is_step h e = false ->
  nth_error (m_handles m) h = Some (Some (Handle a (Some b))) -> nth_error p h = Some (Some (c, pend)) ->
  nth_error (m_handles m') h = Some (Some (Handle a (Some b))).
Proof.
  intros I E Ns H Hp.
  assert (SET : forall h' x, h' <> h -> nth_error (set_handle h' x (m_handles m)) h = Some (Some (Handle a (Some b)))).
  { intros h' x N. unfold set_handle. rewrite upd_neq by auto. exact H. }
  assert (APP : forall x, nth_error (m_handles m ++ [x]) h = Some (Some (Handle a (Some b)))).
  { intros x. rewrite nth_error_app1; auto. apply nth_error_Some. rewrite H. discriminate. }
  destruct e as [n|h'|h'|h' i|h' i v|h']; cbn [occur] in E.
  - cbn [alloc] in E. injection E as <- <-. apply APP.
  - destruct (nth_error (m_handles m) h') as [[[a' [b'|]]|]|] eqn:Eh; injection E as <- <-; auto. apply APP.
  - destruct (nth_error (m_handles m) h') as [[[a' [b'|]]|]|] eqn:Eh; injection E as <- <-; auto. apply SET.
    intros ->. congruence.
  - destruct (nth_error (m_handles m) h') as [[[a' [b'|]]|]|] eqn:Eh; try (injection E as <- <-; auto).
    destruct (cell_at a' (m_heap m)) as [cl|]; [|injection E as <- <-; auto].
    destruct (nth_error (c_data cl) i); injection E as <- <-; auto.
  - destruct (nth_error (m_handles m) h') as [[[a' [b'|]]|]|] eqn:Eh; injection E as <- <-; auto. apply SET.
    intros ->. congruence.
  - cbn in Ns. apply Nat.eqb_neq in Ns.
    destruct (nth_error (m_handles m) h') as [[[a' [[[i v] ph]|]]|]|] eqn:Eh; try (injection E as <- <-; auto).
    unfold step_set in E. destruct (cell_at a' (m_heap m)) as [cl|]; [|injection E as <- <-; auto].
    destruct ph as [|[|]|acc|]; try (injection E as <- <-; apply SET; auto).
    + destruct (nth_error (c_data cl) (length acc)); cbn [alloc] in E; injection E as <- <-; apply SET; auto.
    + destruct (get_mut cl); [destruct (put i v (c_data cl))|]; injection E as <- <-; apply SET; auto.
Qed.

Lemma allowed_other p e o p1 h c iv : allowed p e o p1 -> is_step h e = false ->
  nth_error p h = Some (Some (c, Some iv)) -> nth_error p1 h = nth_error p h.
Proof.
  intros A Es Hp.
  assert (L : forall h' x, nth_error p h' = Some x -> h' < length p)
    by (intros h' x Hx; apply nth_error_Some; rewrite Hx; discriminate).
  assert (APP : forall x, nth_error (p ++ [x]) h = nth_error p h) by (intros x; apply nth_error_app1; eauto).
  destruct A; auto; cbn in Es; try (apply Nat.eqb_neq in Es).
  - destruct H as [c' H]. rewrite place_neq; eauto. intros ->. congruence.
  - rewrite place_neq; eauto. intros ->. congruence.
  - rewrite place_neq; eauto.
  - rewrite place_neq; eauto.
Qed.

Lemma finishes es : forall m p h a i v ph c, Inv m p ->
  nth_error (m_handles m) h = Some (Some (Handle a (Some (i, v, ph)))) ->
  nth_error p h = Some (Some (c, Some (i, v))) ->
  rest (length c) ph <= length (filter (is_step h) es) ->
  existsb (ended h) (snd (happen m es)) = true.
Proof.
  induction es as [|e es IH]; intros m p h a i v ph c I H Hp L; cbn [happen filter] in *.
  - destruct ph as [|[|]| |]; cbn in L; lia.
  - destruct (occur m e) as [m1 o] eqn:E. destruct (occur_ok _ I E) as (p1 & A & I1).
    destruct (happen m1 es) as [m2 tr] eqn:Eh. cbn [snd existsb].
    assert (tr = snd (happen m1 es)) as Etr by (rewrite Eh; auto).
    destruct (is_step h e) eqn:Es.
    + destruct e as [| | | | |h']; try discriminate. cbn in Es. apply Nat.eqb_eq in Es. subst h'.
      destruct (inv_at _ I H) as (c' & pend & cl & Hp' & Hc & D & B & _). rewrite Hp in Hp'. injection Hp' as <- <-.
      cbn [h_addr h_busy busy_ok] in *. destruct B as (_ & _ & B).
      assert (GO : forall a' ph' hp, m1 = Machine hp (set_handle h (Some (Handle a' (Some (i, v, ph')))) (m_handles m)) ->
                 o = OPending -> rest (length c) ph' < rest (length c) ph -> ended h (EStep h, o) || existsb (ended h) tr = true).
      { intros a' ph' hp -> -> R. cbn [ended orb]. rewrite Etr. cbn [length] in L.
        eapply (IH _ p1 h a' i v ph' c); eauto.
        - cbn. unfold set_handle. exact (upd_eq (fun _ => Some (Handle a' (Some (i, v, ph')))) _ _ H).
        - inversion A; subst; auto; try congruence.
        - lia. }
      cbn [occur] in E. rewrite H in E. unfold step_set, cell_at in E. rewrite Hc in E.
      destruct ph as [|[|]|acc|].
      * injection E as <- <-. eapply GO; eauto. cbn. destruct (uniq cl); cbn; lia.
      * injection E as <- <-. eapply GO; eauto.
      * injection E as <- <-. eapply GO; eauto. cbn. lia.
      * destruct (nth_error (c_data cl) (length acc)) eqn:Ex.
        -- injection E as <- <-. eapply GO; eauto. cbn. rewrite app_length. cbn.
           assert (length acc < length (c_data cl)) by (apply nth_error_Some; rewrite Ex; discriminate).
           rewrite D in *. lia.
        -- cbn [alloc] in E. injection E as <- <-. eapply GO; eauto. cbn. lia.
      * destruct (get_mut cl); [destruct (put i v (c_data cl))|]; injection E as <- <-; cbn; rewrite Nat.eqb_refl; auto.
    + rewrite Etr. apply orb_true_iff. right.
      eapply (IH _ p1 h a i v ph c); eauto.
      * exact (@others_keep m p e m1 o h a _ c _ I E Es H Hp).
      * rewrite (@allowed_other p e o p1 h c _ A Es Hp). exact Hp.
Qed.

Lemma begun_finishes es1 es2 h i v a c : let m := fst (happen start es1) in
  nth_error (m_handles m) h = Some (Some (Handle a None)) -> nth_error (m_heap m) a = Some c ->
  length (c_data c) + 4 <= length (filter (is_step h) es2) ->
  existsb (ended h) (snd (happen (fst (occur m (EBegin h i v))) es2)) = true.
Proof.
  intros m H Hc L. destruct (happen_ok es1 inv_start) as (p & _ & I). fold m in I.
  destruct (occur m (EBegin h i v)) as [m1 o] eqn:E. destruct (occur_ok _ I E) as (p1 & A & I1).
  destruct (idle_p _ I H) as (c' & cl & Hp & Hcl & D & _).
  cbn [occur] in E. rewrite H in E. injection E as <- <-. cbn [fst].
  rewrite Hcl in Hc. injection Hc as ->.
  assert (Lh := inv_lt _ I H).
  eapply (@finishes es2 _ p1 h a i v PStart c'); eauto.
  - cbn. unfold set_handle. exact (upd_eq (fun _ => Some (Handle a (Some (i, v, PStart)))) _ _ H).
  - inversion A; subst; try congruence.
    + rewrite place_eq by auto. congruence.
  - cbn. rewrite <- D. lia.
Qed.

Lemma happen_app es1 : forall m es2, happen m (es1 ++ es2) =
  (fst (happen (fst (happen m es1)) es2), snd (happen m es1) ++ snd (happen (fst (happen m es1)) es2)).
Proof.
  induction es1 as [|e es1 IH]; intros m es2; cbn [app happen].
  - cbn. destruct (happen m es2); auto.
  - destruct (occur m e) as [m1 o]. rewrite IH. destruct (happen m1 es1). reflexivity.
Qed.

Lemma allowed_else p e o p1 h x : allowed p e o p1 -> touches h e = false -> nth_error p h = Some x -> nth_error p1 h = Some x.
Proof.
  intros A T Hp. assert (Lh : h < length p) by (apply nth_error_Some; rewrite Hp; discriminate).
  assert (LL : forall h' y, nth_error p h' = Some y -> h' < length p)
    by (intros h' y Hy; apply nth_error_Some; rewrite Hy; discriminate).
  destruct A; cbn in T; auto; try (apply Nat.eqb_neq in T).
  - rewrite nth_error_app1; auto.
  - rewrite nth_error_app1; auto.
  - destruct H as [c' H]. rewrite place_neq; eauto.
  - rewrite place_neq; eauto.
  - rewrite place_neq; eauto.
  - rewrite place_neq; eauto.
Qed.
Lemma happen_else es : forall m p h x, Inv m p -> existsb (touches h) es = false -> nth_error p h = Some x ->
  exists p', Inv (fst (happen m es)) p' /\ nth_error p' h = Some x.
Proof.
  induction es as [|e es IH]; intros m p h x I T Hp; cbn [happen existsb] in *; [eauto|].
  apply orb_false_iff in T. destruct T as [T1 T2].
  destruct (occur m e) as [m1 o] eqn:E. destruct (occur_ok _ I E) as (p1 & A & I1).
  destruct (IH m1 p1 h x I1 T2 (allowed_else _ A T1 Hp)) as (p' & I' & H').
  destruct (happen m1 es) as [m2 tr]. eauto.
Qed.
Lemma fetch_out m p h i : Inv m p -> snd (occur m (EFetch h i)) =
  match nth_error p h with
  | Some (Some (c, None)) => match nth_error c i with Some v => OVal v | None => OPanic end
  | _ => OIllegal
  end.
Proof.
  intros I. destruct (occur m (EFetch h i)) as [m1 o] eqn:E. destruct (occur_ok _ I E) as (p1 & A & _). cbn [snd].
  inversion A as [| | |h' c i' v Hc Hv|h' c i' Hc Hv| | | | |? ? H H0|]; subst.
  - rewrite Hc, Hv. reflexivity.
  - rewrite Hc. apply nth_error_None in Hv. rewrite Hv. reflexivity.
  - destruct H as [X|[X|[[j X]|[j [v X]]]]]; try discriminate. injection X as <- <-.
    match goal with |- _ = match ?t with _ => _ end => destruct t as [[[c [|]]|]|] eqn:Ep end; auto. destruct H0. exists c. auto.
Qed.
Lemma fetch_else es m p h i : Inv m p -> existsb (touches h) es = false -> h < length p ->
  snd (occur (fst (happen m es)) (EFetch h i)) = snd (occur m (EFetch h i)).
Proof.
  intros I T L. destruct (nth_error p h) as [x|] eqn:Hp; [|apply nth_error_None in Hp; lia].
  destruct (happen_else es h I T Hp) as (p' & I' & Hp').
  rewrite (fetch_out _ _ I), (fetch_out _ _ I'), Hp, Hp'. reflexivity.
Qed.
Lemma fetch_same es1 es2 h i : let m := fst (happen start es1) in
  h < length (m_handles m) -> existsb (touches h) es2 = false ->
  snd (occur (fst (happen m es2)) (EFetch h i)) = snd (occur m (EFetch h i)).
Proof.
  intros m L T. destruct (happen_ok es1 inv_start) as (p & _ & I). fold m in I.
  eapply fetch_else; eauto. apply nth_error_Some in L. destruct (nth_error (m_handles m) h) eqn:E; [|congruence].
  eapply inv_lt; eauto.
Qed.
