From Coq Require Import List Arith Lia NArith ZArith Bool Sorted.
From Verif Require Import Model.Base Model.Value Model.FsCache Spec.FsCacheSpec.
Import ListNotations.

Lemma ty_eqb_refl : forall t, ty_eqb t t = true.
Proof. destruct t as [| | | | | |d]; try reflexivity. cbn. apply str_eqb_refl. Qed.
Lemma ty_eqb_sym : forall a b, ty_eqb a b = ty_eqb b a.
Proof.
  intros a b. destruct a as [| | | | | |d], b as [| | | | | |e]; try reflexivity. cbn.
  destruct (str_eqb_spec (td_name d) (td_name e)) as [E|E], (str_eqb_spec (td_name e) (td_name d)); congruence.
Qed.
Lemma ty_eqb_trans : forall a b c, ty_eqb a b = true -> ty_eqb b c = ty_eqb a c.
Proof.
  intros a b c. destruct a as [| | | | | |d], b as [| | | | | |e]; try discriminate; auto. cbn.
  intros H. apply str_eqb_eq in H. destruct c; auto. now rewrite H.
Qed.

Lemma key_eqb_refl : forall k, key_eqb k k = true.
Proof. intros k. unfold key_eqb. now rewrite str_eqb_refl, ty_eqb_refl. Qed.
Lemma key_eqb_sym : forall a b, key_eqb a b = key_eqb b a.
Proof.
  intros a b. unfold key_eqb. rewrite ty_eqb_sym. f_equal.
  destruct (str_eqb_spec (k_path a) (k_path b)), (str_eqb_spec (k_path b) (k_path a)); congruence.
Qed.
Lemma key_eqb_trans : forall a b c, key_eqb a b = true -> key_eqb b c = key_eqb a c.
Proof.
  intros a b c. unfold key_eqb. intros H. apply andb_true_iff in H as [H1 H2]. apply str_eqb_eq in H1.
  now rewrite H1, (ty_eqb_trans _ _ (k_ty c) H2).
Qed.

Lemma find_remove_same : forall k k' m, key_eqb k k' = true -> find_key k (remove_key k' m) = None.
Proof.
  intros k k' m H. unfold remove_key. induction m as [|[k2 x] m IH]; [reflexivity|]. cbn [filter fst].
  destruct (key_eqb k' k2) eqn:E; cbn [negb]; [exact IH|]. cbn [find_key].
  rewrite <- (key_eqb_trans k k' k2 H), E. exact IH.
Qed.
Lemma find_remove_other : forall k k' m, key_eqb k k' = false -> find_key k (remove_key k' m) = find_key k m.
Proof.
  intros k k' m H. unfold remove_key. induction m as [|[k2 x] m IH]; [reflexivity|]. cbn [filter fst].
  destruct (key_eqb k' k2) eqn:E; cbn [negb find_key].
  - destruct (key_eqb k k2) eqn:E2; [|exact IH]. rewrite key_eqb_sym in E.
    rewrite <- (key_eqb_trans k k2 k' E2) in H. congruence.
  - destruct (key_eqb k k2); auto.
Qed.
Lemma find_insert : forall k k' x m, find_key k (insert_key k' x m) = if key_eqb k k' then Some x else find_key k m.
Proof.
  intros k k' x m. unfold insert_key. cbn [find_key]. destruct (key_eqb k k') eqn:E; auto. now apply find_remove_other.
Qed.

(** Keys are distinct, so dropping entries affects lookups one by one. *)
Fixpoint distinct_keys (m : cache_map) : Prop :=
  match m with [] => True | (k, _) :: m => find_key k m = None /\ distinct_keys m end.

Lemma find_filter : forall f k m, distinct_keys m ->
  find_key k (filter f m) =
  match find_key k m with
  | Some x => if existsb (fun kv => key_eqb k (fst kv) && f kv) m then Some x else None
  | None => None
  end.
Proof.
  intros f k. induction m as [|[k2 x] m IH]; [reflexivity|]. intros [H1 H2]. cbn [filter find_key existsb fst].
  destruct (key_eqb k k2) eqn:E; cbn [andb].
  - destruct (f (k2, x)) eqn:Ef; cbn [find_key orb]; [now rewrite E|].
    rewrite IH by auto. assert (N0 : find_key k m = None).
    { clear - H1 E. induction m as [|[k3 y] m IH]; [reflexivity|]. cbn in *.
      rewrite <- (key_eqb_trans k k2 k3 E). destruct (key_eqb k2 k3); [discriminate|auto]. }
    rewrite N0. destruct (existsb _ m) eqn:EX; auto. exfalso.
    apply existsb_exists in EX as ([k3 y] & Hi & Hk). cbn in Hk. apply andb_true_iff in Hk as [Hk _].
    clear - N0 Hi Hk. induction m as [|[k4 z] m IH]; [destruct Hi|]. cbn in N0. destruct Hi as [[= -> ->]|Hi].
    + now rewrite Hk in N0.
    + destruct (key_eqb k k4); [discriminate|auto].
  - cbn [orb]. destruct (f (k2, x)); cbn [find_key]; [rewrite E|]; apply IH; auto.
Qed.

Lemma distinct_filter : forall f m, distinct_keys m -> distinct_keys (filter f m).
Proof.
  intros f. induction m as [|[k x] m IH]; [auto|]. intros [H1 H2]. cbn [filter].
  destruct (f (k, x)); auto. cbn. split; auto. rewrite find_filter by auto. now rewrite H1.
Qed.
Lemma distinct_insert : forall k x m, distinct_keys m -> distinct_keys (insert_key k x m).
Proof.
  intros k x m H. cbn. split; [apply find_remove_same, key_eqb_refl|]. now apply distinct_filter.
Qed.

Lemma find_in : forall k m x, find_key k m = Some x -> exists k', In (k', x) m /\ key_eqb k k' = true.
Proof.
  induction m as [|[k2 y] m IH]; [discriminate|]. cbn. intros x. destruct (key_eqb k k2) eqn:E.
  - intros [= ->]. eauto.
  - intros H. destruct (IH x H) as (k' & ? & ?). eauto.
Qed.

Lemma find_unique : forall k m x k' y, distinct_keys m -> find_key k m = Some x -> In (k', y) m -> key_eqb k k' = true -> y = x.
Proof.
  induction m as [|[k2 z] m IH]; intros x k' y HD HF HI HK; [destruct HI|]. destruct HD as [H1 H2]. cbn in HF.
  destruct HI as [[= -> ->]|HI].
  - rewrite HK in HF. congruence.
  - destruct (key_eqb k k2) eqn:E; [|eauto]. exfalso.
    assert (key_eqb k2 k' = true) by (rewrite (key_eqb_trans k k2 k' E); auto).
    clear - H1 HI H. induction m as [|[k4 w] m IH]; [destruct HI|]. cbn in H1. destruct HI as [[= -> ->]|HI].
    + now rewrite H in H1.
    + destruct (key_eqb k2 k4); [discriminate|auto].
Qed.

(** A filter whose test depends on the equivalence class of the key and the entry only. *)
Lemma find_filter_class : forall f k m, distinct_keys m ->
  (forall k1 k2 x, key_eqb k1 k2 = true -> f (k1, x) = f (k2, x)) ->
  find_key k (filter f m) = match find_key k m with Some x => if f (k, x) then Some x else None | None => None end.
Proof.
  intros f k m HD HF. rewrite find_filter by auto. destruct (find_key k m) as [x|] eqn:E; auto.
  destruct (find_in k m x E) as (k' & Hi & Hk). rewrite (HF k k' x Hk).
  destruct (existsb _ m) eqn:EX.
  - apply existsb_exists in EX as ([k3 y] & Hi3 & H3). cbn in H3. apply andb_true_iff in H3 as [H3 H4].
    assert (y = x) by (eapply find_unique; eauto). subst y. rewrite <- (HF k k' x Hk), (HF k k3 x H3), H4. reflexivity.
  - destruct (f (k', x)) eqn:Ef; auto. exfalso.
    assert (existsb (fun kv => key_eqb k (fst kv) && f kv) m = true); [|congruence].
    apply existsb_exists. exists (k', x). split; auto. cbn. now rewrite Hk, Ef.
Qed.

Section Run.
  Variable lower : str -> str.

  (** What one key sees of an operation. *)
  Definition track (k : key) (x : option (N * value)) (e : N * cache_op) : option (N * value) :=
    let (now, op) := e in
    match op with
    | CGet p t => if key_eqb k (key_of lower p t) then match x with Some (_, v) => Some (now, v) | None => None end else x
    | CInsert p v => if key_eqb k (key_of lower p (ty_of v)) then Some (now, v) else x
    | CChanged ps => if existsb (str_eqb (k_path k)) (map lower ps) then None else x
    | CExpire age => match x with Some (u, v) => if (now - u <? age)%N then Some (u, v) else None | None => None end
    end.

  Lemma step_track : forall k m e, distinct_keys m ->
    find_key k (cache_step lower m e) = track k (find_key k m) e /\ distinct_keys (cache_step lower m e).
  Proof.
    intros k m [now op] HD. destruct op as [p t|p v|ps|age]; cbn [cache_step track].
    - unfold cache_get. destruct (find_key (key_of lower p t) m) as [[u v]|] eqn:E; cbn [snd].
      + split; [|now apply distinct_insert]. rewrite find_insert. destruct (key_eqb k (key_of lower p t)) eqn:Ek; auto.
        assert (F : find_key k m = Some (u, v)).
        { rewrite <- E. clear - Ek. induction m as [|[k2 y] m IH]; [reflexivity|]. cbn.
          rewrite (key_eqb_trans k (key_of lower p t) k2 Ek). destruct (key_eqb k k2); auto. }
        now rewrite F.
      + split; auto. destruct (key_eqb k (key_of lower p t)) eqn:Ek; auto.
        assert (F : find_key k m = None).
        { rewrite <- E. clear - Ek. induction m as [|[k2 y] m IH]; [reflexivity|]. cbn.
          rewrite (key_eqb_trans k (key_of lower p t) k2 Ek). destruct (key_eqb k k2); auto. }
        now rewrite F.
    - unfold cache_insert. split; [apply find_insert|now apply distinct_insert].
    - unfold remove_path_changes. split; [|now apply distinct_filter].
      rewrite find_filter_class; auto.
      + cbn [fst]. destruct (existsb (str_eqb (k_path k)) (map lower ps)); cbn [negb]; destruct (find_key k m); auto.
      + intros k1 k2 x H. cbn [fst]. unfold key_eqb in H. apply andb_true_iff in H as [H _]. apply str_eqb_eq in H. now rewrite H.
    - unfold remove_expired. split; [|now apply distinct_filter].
      rewrite find_filter_class; auto. destruct (find_key k m) as [[u v]|]; auto.
  Qed.

  Lemma run_track : forall k log m, distinct_keys m ->
    find_key k (fold_left (cache_step lower) log m) = fold_left (track k) log (find_key k m).
  Proof.
    intros k. induction log as [|e log IH]; intros m HD; [reflexivity|]. cbn [fold_left].
    destruct (step_track k m e HD) as [E HD']. rewrite IH, E by auto. reflexivity.
  Qed.

  (** The last use of an entry that is there. *)
  Definition tracked (log : list (N * cache_op)) (p : str) (t : ty) (u : N) (v : value) : Prop :=
    exists l1 t0 p0 l2, log = l1 ++ (t0, CInsert p0 v) :: l2 /\ same_key lower p t p0 (ty_of v) /\
      (forall t' q w, In (t', CInsert q w) l2 -> ~ same_key lower p t q (ty_of w)) /\
      (forall t' ps q, In (t', CChanged ps) l2 -> In q ps -> lower q <> lower p) /\
      (forall l3 now age l4, l2 = l3 ++ (now, CExpire age) :: l4 ->
         exists used, (used = t0 \/ exists q u, In (used, CGet q u) l3 /\ same_key lower p t q u) /\
                      (now - used < age)%N) /\
      (u = t0 \/ exists q w, In (u, CGet q w) l2 /\ same_key lower p t q w) /\
      (forall t' q w, In (t', CGet q w) l2 -> same_key lower p t q w -> (t' <= u)%N) /\ (t0 <= u)%N.

  Lemma key_same : forall p t q u, key_eqb (key_of lower p t) (key_of lower q u) = true <-> same_key lower p t q u.
  Proof.
    intros. unfold key_eqb, same_key. cbn. rewrite andb_true_iff, str_eqb_eq. reflexivity.
  Qed.

  Lemma snoc_split : forall A (l l1 l2 : list A) e x, l ++ [e] = l1 ++ x :: l2 ->
    (l2 = [] /\ x = e /\ l = l1) \/ exists l2', l2 = l2' ++ [e] /\ l = l1 ++ x :: l2'.
  Proof.
    intros A l l1 l2 e x H. destruct l2 as [|y l2' _] using rev_ind.
    - left. apply app_inj_tail in H as [-> ->]. auto.
    - right. exists l2'. rewrite app_comm_cons, app_assoc in H. apply app_inj_tail in H as [-> ->]. auto.
  Qed.

  Lemma sorted_snoc : forall log (e : N * cache_op), in_time_order (log ++ [e]) ->
    in_time_order log /\ forall t op, In (t, op) log -> (t <= fst e)%N.
  Proof.
    unfold in_time_order. intros log e. rewrite map_app. cbn. induction log as [|[t0 o0] log IH]; cbn; intros H.
    - split; [constructor|intros ? ? []].
    - inversion H; subst. destruct (IH H2) as [I1 I2]. rewrite Forall_app in H3. destruct H3 as [F1 F2]. inversion F2; subst.
      split; [constructor; auto|]. intros t op [[= -> ->]|Hi]; eauto.
  Qed.

  Lemma tracked_spec : forall p t log, in_time_order log -> forall u v,
    fold_left (track (key_of lower p t)) log None = Some (u, v) <-> tracked log p t u v.
  Proof.
    intros p t. induction log as [|e log IH] using rev_ind; intros HT u v.
    - split; [discriminate|]. intros (l1 & t0 & p0 & l2 & E & _). destruct l1; discriminate.
    - destruct (sorted_snoc _ _ HT) as [HT' HB]. specialize (IH HT').
      rewrite fold_left_app. cbn [fold_left].
      set (x := fold_left (track (key_of lower p t)) log None) in *.
      destruct e as [now op]. cbn [fst] in HB.
      assert (OLD : forall u' v', tracked log p t u' v' ->
         (forall q w, op = CInsert q w -> ~ same_key lower p t q (ty_of w)) ->
         (forall ps q, op = CChanged ps -> In q ps -> lower q <> lower p) ->
         (forall age, op = CExpire age -> (now - u' < age)%N) ->
         (forall q w, op = CGet q w -> ~ same_key lower p t q w) ->
         tracked (log ++ [(now, op)]) p t u' v').
      { intros u' v' (l1 & t0 & p0 & l2 & -> & K & NI & NC & NE & LU & LM & L0) H1 H2 H3 H4.
        exists l1, t0, p0, (l2 ++ [(now, op)]). rewrite <- app_assoc. split; [reflexivity|]. split; auto.
        split; [intros t' q w Hi; apply in_app_or in Hi as [Hi|[[= -> ->]|[]]]; eauto|].
        split; [intros t' ps q Hi; apply in_app_or in Hi as [Hi|[[= -> ->]|[]]]; eauto|].
        split.
        - intros l3 now' age l4 E. apply snoc_split in E as [(-> & [= -> <-] & ->)|(l4' & -> & ->)]; eauto.
        - split; [destruct LU as [->|(q & w & Hi & Hk)]; auto; right; exists q, w; split; auto; apply in_or_app; auto|].
          split; auto. intros t' q w Hi Hk. apply in_app_or in Hi as [Hi|[[= -> ->]|[]]]; eauto. exfalso. eapply H4; eauto. }
      assert (UNI : forall u1 v1 u2 v2, tracked log p t u1 v1 -> tracked log p t u2 v2 -> u1 = u2 /\ v1 = v2).
      { intros u1 v1 u2 v2 A B. apply IH in A, B. rewrite A in B. injection B as -> ->. auto. }
      assert (BACK : forall u' v', tracked (log ++ [(now, op)]) p t u' v' ->
         (forall q w, op = CInsert q w -> ~ same_key lower p t q (ty_of w)) ->
         (forall ps q, op = CChanged ps -> In q ps -> lower q <> lower p) /\
         exists u'', tracked log p t u'' v' /\
           (forall age, op = CExpire age -> (now - u'' < age)%N) /\
           ((forall q w, op = CGet q w -> ~ same_key lower p t q w) -> u'' = u') /\
           (forall q w, op = CGet q w -> same_key lower p t q w -> u' = now)).
      { intros u' v' (l1 & t0 & p0 & l2 & E & K & NI & NC & NE & LU & LM & L0) HN.
        apply snoc_split in E as [(-> & E & ->)|(l2' & -> & ->)].
        - injection E as <- <-. exfalso. eapply HN; eauto.
        - assert (Hin : In (now, op) (l2' ++ [(now, op)])) by (apply in_or_app; right; now left).
          split; [intros ps q -> Hq; eapply NC; eauto|].
          assert (HX : exists u'', (u'' = t0 \/ exists q w, In (u'', CGet q w) l2' /\ same_key lower p t q w) /\
             (forall t' q w, In (t', CGet q w) l2' -> same_key lower p t q w -> (t' <= u'')%N) /\ (t0 <= u'')%N).
          { clear - HT'. assert (S2 : in_time_order ((t0, CInsert p0 v') :: l2')).
            { unfold in_time_order in *. rewrite map_app in HT'. clear -HT'. induction l1; cbn in *; auto. inversion HT'; auto. }
            clear HT'. induction l2' as [|e l2' IH2] using rev_ind.
            - exists t0. split; auto. split; [intros ? ? ? []|lia].
            - rewrite app_comm_cons in S2. destruct (sorted_snoc _ _ S2) as [S3 B3].
              destruct (IH2 S3) as (u'' & C & M & L). destruct e as [t1 o1].
              destruct (match o1 with CGet q w => key_eqb (key_of lower p t) (key_of lower q w) | _ => false end) eqn:EK.
              + destruct o1 as [q w| | |]; try discriminate. apply key_same in EK. exists t1. split.
                * right. exists q, w. split; auto. apply in_or_app. right. now left.
                * split; [|apply (B3 _ _ (or_introl eq_refl))]. intros t' q' w' Hi _. apply in_app_or in Hi as [Hi|[[= -> _ _]|[]]]; [|lia].
                  apply (B3 t' (CGet q' w')). now right.
              + exists u''. split; [destruct C as [->|(q & w & Hi & Hk)]; auto; right; exists q, w; split; auto; apply in_or_app; auto|].
                split; auto. intros t' q' w' Hi Hk. apply in_app_or in Hi as [Hi|[[= -> ->]|[]]]; eauto.
                apply key_same in Hk. congruence. }
          destruct HX as (u'' & C & M & L). exists u''.
          split.
          { exists l1, t0, p0, l2'. split; [reflexivity|]. split; [exact K|].
            split; [intros t' q w Hi; apply (NI t' q w); apply in_or_app; auto|].
            split; [intros t' ps q Hi; apply (NC t' ps q); apply in_or_app; auto|].
            split; [|auto].
            intros l3 now' age l4 ->. apply (NE l3 now' age (l4 ++ [(now, op)])). rewrite <- app_assoc. reflexivity. }
          { split.
            * intros age ->. destruct (NE l2' now age [] eq_refl) as (used & Hu & Hlt).
              assert (used <= u'')%N by (destruct Hu as [->|(q & w & Hi & Hk)]; eauto). lia.
            * split.
              -- intros HG. assert (u' <= u'')%N.
                 { destruct LU as [->|(q & w & Hi & Hk)]; auto. apply in_app_or in Hi as [Hi|[[= -> ->]|[]]]; eauto. exfalso. eapply HG; eauto. }
                 assert (u'' <= u')%N.
                 { destruct C as [->|(q & w & Hi & Hk)]; auto. apply (LM u'' q w); auto. apply in_or_app. auto. }
                 lia.
              -- intros q w -> Hk. assert (now <= u')%N by (eapply LM; eauto).
                 assert (u' <= now)%N; [|lia].
                 destruct LU as [->|(q' & w' & Hi & Hk')].
                 ++ apply (HB t0 (CInsert p0 v')). apply in_or_app. right. now left.
                 ++ apply in_app_or in Hi as [Hi|[[= -> _ _]|[]]]; [|lia]. apply (HB u' (CGet q' w')).
                    apply in_or_app. right. now right. } }
      destruct op as [q w|q w|ps|age]; cbn [track].
      + destruct (key_eqb (key_of lower p t) (key_of lower q w)) eqn:EK.
        * apply key_same in EK. split.
          -- destruct x as [[u0 v0]|]; [|discriminate]. intros [= <- <-]. destruct (proj1 (IH u0 v0) eq_refl) as
               (l1 & t0 & p0 & l2 & -> & K & NI & NC & NE & LU & LM & L0).
             exists l1, t0, p0, (l2 ++ [(now, CGet q w)]). rewrite <- app_assoc. split; [reflexivity|]. split; auto.
             split; [intros t' q' w' Hi; apply in_app_or in Hi as [Hi|[[=]|[]]]; eauto|].
             split; [intros t' ps q' Hi; apply in_app_or in Hi as [Hi|[[=]|[]]]; eauto|].
             split; [intros l3 now' age l4 E; apply snoc_split in E as [(-> & [=] & ->)|(l4' & -> & ->)]; eauto|].
             split; [right; exists q, w; split; auto; apply in_or_app; right; now left|].
             split; [|apply (HB t0 (CInsert p0 v0)); apply in_or_app; right; now left].
             intros t' q' w' Hi Hk. apply in_app_or in Hi as [Hi|[[= -> _ _]|[]]]; [|lia].
             apply (HB t' (CGet q' w')). apply in_or_app. right. now right.
          -- intros HTr. destruct (BACK u v HTr) as [_ (u'' & Htr & _ & _ & Hnow)]; [discriminate|].
             apply IH in Htr. rewrite Htr. now rewrite (Hnow q w eq_refl EK).
        * assert (NK : ~ same_key lower p t q w) by (rewrite <- key_same; congruence). split.
          -- intros Hx. apply IH in Hx. apply OLD; auto; try discriminate. intros q' w' [= <- <-]. auto.
          -- intros HTr. destruct (BACK u v HTr) as [_ (u'' & Htr & _ & Heq & _)]; [discriminate|].
             rewrite <- Heq by (intros q' w' [= <- <-]; auto). now apply IH.
      + destruct (key_eqb (key_of lower p t) (key_of lower q (ty_of w))) eqn:EK.
        * apply key_same in EK. split.
          -- intros [= <- <-]. exists log, now, q, []. split; auto. split; auto. split; [intros ? ? ? []|]. split; [intros ? ? ? []|].
             split; [intros [|? ?] ? ? ? E; discriminate|]. split; auto. split; [intros ? ? ? []|lia].
          -- intros (l1 & t0 & p0 & l2 & E & K & NI & NC & NE & LU & LM & L0).
             apply snoc_split in E as [(-> & [= <- <- <-] & ->)|(l2' & -> & ->)].
             ++ destruct LU as [->|(? & ? & [] & _)]. reflexivity.
             ++ exfalso. eapply (NI now q w); auto. apply in_or_app. right. now left.
        * assert (NK : ~ same_key lower p t q (ty_of w)) by (rewrite <- key_same; congruence). split.
          -- intros Hx. apply IH in Hx. apply OLD; auto; try discriminate. intros q' w' [= <- <-]. auto.
          -- intros HTr. destruct (BACK u v HTr) as [_ (u'' & Htr & _ & Heq & _)]; [intros q' w' [= <- <-]; auto|].
             rewrite <- Heq by discriminate. now apply IH.
      + cbn [key_of k_path]. destruct (existsb (str_eqb (lower p)) (map lower ps)) eqn:EX.
        * split; [discriminate|]. intros HTr. destruct (BACK u v HTr) as [HC _]; [discriminate|].
          apply existsb_exists in EX as (lq & Hi & Hq). apply str_eqb_eq in Hq. subst lq.
          apply in_map_iff in Hi as (q & Hq & Hi). exfalso. eapply (HC ps q); eauto.
        * split.
          -- intros Hx. apply IH in Hx. apply OLD; auto; try discriminate. intros ps' q [= <-] Hi Hl.
             assert (existsb (str_eqb (lower p)) (map lower ps) = true); [|congruence].
             apply existsb_exists. exists (lower q). split; [now apply in_map|]. apply str_eqb_eq. auto.
          -- intros HTr. destruct (BACK u v HTr) as [_ (u'' & Htr & _ & Heq & _)]; [discriminate|].
             rewrite <- Heq by discriminate. now apply IH.
      + split.
        * destruct x as [[u0 v0]|]; [|discriminate]. destruct (N.ltb_spec (now - u0) age) as [HL|HL]; [|discriminate].
          intros [= <- <-]. apply OLD; try discriminate; [now apply IH|]. now intros age' [= <-].
        * intros HTr. destruct (BACK u v HTr) as [_ (u'' & Htr & HA & Heq & _)]; [discriminate|].
          assert (u'' = u) by (apply Heq; discriminate). subst u''. pose proof (HA age eq_refl) as HL.
          apply IH in Htr. rewrite Htr. apply N.ltb_lt in HL. now rewrite HL.
  Qed.

  Lemma tracked_cached : forall log p t u v, tracked log p t u v -> cached lower log p t v.
  Proof. intros log p t u v (l1 & t0 & p0 & l2 & E & K & NI & NC & NE & _). exists l1, t0, p0, l2. auto. Qed.

  Lemma cached_tracked : forall log p t v, in_time_order log -> cached lower log p t v -> exists u, tracked log p t u v.
  Proof.
    intros log p t v HT (l1 & t0 & p0 & l2 & -> & K & NI & NC & NE).
    assert (S2 : in_time_order ((t0, CInsert p0 v) :: l2)).
    { unfold in_time_order in *. rewrite map_app in HT. clear -HT. induction l1; cbn in *; auto. inversion HT; auto. }
    assert (HX : exists u'', (u'' = t0 \/ exists q w, In (u'', CGet q w) l2 /\ same_key lower p t q w) /\
             (forall t' q w, In (t', CGet q w) l2 -> same_key lower p t q w -> (t' <= u'')%N) /\ (t0 <= u'')%N).
    { clear - S2. induction l2 as [|e l2' IH2] using rev_ind.
      - exists t0. split; auto. split; [intros ? ? ? []|lia].
      - rewrite app_comm_cons in S2. destruct (sorted_snoc _ _ S2) as [S3 B3].
        destruct (IH2 S3) as (u'' & C & M & L). destruct e as [t1 o1].
        destruct (match o1 with CGet q w => key_eqb (key_of lower p t) (key_of lower q w) | _ => false end) eqn:EK.
        + destruct o1 as [q w| | |]; try discriminate. apply key_same in EK. exists t1. split.
          * right. exists q, w. split; auto. apply in_or_app. right. now left.
          * split; [|apply (B3 _ _ (or_introl eq_refl))]. intros t' q' w' Hi _. apply in_app_or in Hi as [Hi|[[= -> _ _]|[]]]; [|lia].
            apply (B3 t' (CGet q' w')). now right.
        + exists u''. split; [destruct C as [->|(q & w & Hi & Hk)]; auto; right; exists q, w; split; auto; apply in_or_app; auto|].
          split; auto. intros t' q' w' Hi Hk. apply in_app_or in Hi as [Hi|[[= -> ->]|[]]]; eauto.
          apply key_same in Hk. congruence. }
    destruct HX as (u & C & M & L). exists u, l1, t0, p0, l2. split; [reflexivity|]. split; [exact K|]. auto 10.
  Qed.

  Theorem lookup_spec : forall log now p t v, in_time_order log ->
    fst (cache_get lower now p t (cache_run lower log)) = Some v <-> cached lower log p t v.
  Proof.
    intros log now p t v HT. unfold cache_get, cache_run.
    rewrite (run_track (key_of lower p t) log []) by exact I. cbn [find_key].
    destruct (fold_left (track (key_of lower p t)) log None) as [[u w]|] eqn:E; cbn [fst].
    - pose proof (proj1 (tracked_spec p t log HT u w) E) as HTr.
      assert (HK : ty_eqb (ty_of w) t = true).
      { destruct HTr as (l1 & t0 & p0 & l2 & _ & [_ K] & _). now rewrite ty_eqb_sym. }
      rewrite HK. split.
      + intros [= <-]. eapply tracked_cached; eauto.
      + intros HC. destruct (cached_tracked log p t v HT HC) as [u' HTr'].
        apply (tracked_spec p t log HT) in HTr'. congruence.
    - split; [discriminate|]. intros HC. destruct (cached_tracked log p t v HT HC) as [u' HTr'].
      apply (tracked_spec p t log HT) in HTr'. congruence.
  Qed.
End Run.

Section World.
  Variable lower : str -> str.
  Variable parse : ty -> str -> option value.

  Lemma content_holds : forall w p, holds w p (content_after w p).
  Proof.
    intros w p. unfold content_after. induction w as [|[t e] w IH] using rev_ind.
    - left. auto.
    - rewrite fold_left_app. cbn [fold_left]. unfold content_step at 1. cbn [snd].
      destruct e as [q c|q u|q u i|ps|age].
      2-5: (destruct IH as [[E IH]|(w1 & t1 & w2 & E & IH)];
          [left; split; auto; intros t' d Hi; apply in_app_or in Hi as [Hi|[[=]|[]]]; eapply IH; eauto
          |right; exists w1, t1; eexists (w2 ++ [_]); split;
            [rewrite E at 1; rewrite <- app_assoc; reflexivity
            |intros t' d Hi; apply in_app_or in Hi as [Hi|[[=]|[]]]; eapply IH; eauto]]).
      destruct (str_eqb_spec p q) as [<-|N0].
      + right. exists w, t, []. split; auto.
      + destruct IH as [[E IH]|(w1 & t1 & w2 & E & IH)].
        * left. split; auto. intros t' d Hi. apply in_app_or in Hi as [Hi|[[= _ -> _]|[]]]; [eapply IH; eauto|auto].
        * right. exists w1, t1. eexists (w2 ++ [_]). split; [rewrite E at 1; rewrite <- app_assoc; reflexivity|].
          intros t' d Hi. apply in_app_or in Hi as [Hi|[[= _ -> _]|[]]]; [eapply IH; eauto|auto].
  Qed.

  Lemma content_quiet : forall w2 p c, (forall t d, ~ In (t, WWrite p d) w2) -> fold_left (content_step p) w2 c = c.
  Proof.
    induction w2 as [|[t e] w2 IH]; intros p c H; [reflexivity|]. cbn [fold_left].
    rewrite IH by (intros t' d Hi; eapply H; right; eauto). unfold content_step. cbn [snd].
    destruct e; auto. destruct (str_eqb_spec p p0) as [<-|]; auto. exfalso. eapply H. left. reflexivity.
  Qed.

  Lemma holds_content : forall w p c, holds w p c -> content_after w p = c.
  Proof.
    intros w p c [[-> H]|(w1 & t & w2 & -> & H)]; unfold content_after.
    - now apply content_quiet.
    - rewrite fold_left_app. cbn [fold_left]. unfold content_step at 2. cbn [snd]. rewrite str_eqb_refl. now apply content_quiet.
  Qed.

  Lemma content_unique : forall w p c, holds w p c <-> content_after w p = c.
  Proof. intros. split; [apply holds_content|]. intros <-. apply content_holds. Qed.

  (** Positions of the log. *)
  Lemma flat_map_split : forall A B (f : A -> list B) l l1 x l2, (forall a, length (f a) <= 1) ->
    flat_map f l = l1 ++ x :: l2 -> exists k1 a k2, l = k1 ++ a :: k2 /\ f a = [x] /\ l1 = flat_map f k1 /\ l2 = flat_map f k2.
  Proof.
    intros A B f. induction l as [|a l IH]; intros l1 x l2 Hf E; [destruct l1; discriminate|]. cbn in E.
    destruct (f a) as [|y [|z r]] eqn:Ea; [| |specialize (Hf a); rewrite Ea in Hf; cbn in Hf; lia].
    - cbn in E. destruct (IH _ _ _ Hf E) as (k1 & a' & k2 & -> & H1 & -> & ->). exists (a :: k1), a', k2. cbn. rewrite Ea. auto.
    - cbn in E. destruct l1 as [|y' l1].
      + injection E as -> <-. exists [], a, l. auto.
      + injection E as -> E. destruct (IH _ _ _ Hf E) as (k1 & a' & k2 & -> & H1 & -> & ->).
        exists (a :: k1), a', k2. cbn. rewrite Ea. auto.
  Qed.

  Lemma op_of_short : forall w e, length (cache_op_of parse w e) <= 1.
  Proof.
    intros w [t e]. unfold cache_op_of. destruct e; cbn; auto.
    destruct (content_after _ _); cbn; auto. destruct (parse _ _); cbn; auto.
  Qed.

  Theorem open_fresh : forall w now p t v,
    (forall u c x, parse u c = Some x -> ty_eqb (ty_of x) u = true) ->
    (forall q c u i ps s, In (s, WWrite q c) w \/ In (s, WOpened q u i) w \/ (In (s, WNotice ps) w /\ In q ps) -> lower q = lower p -> q = p) ->
    (forall u u' c, ty_eqb u u' = true -> parse u c = parse u' c) ->
    in_time_order (cache_log parse w) -> reads_before w -> reported w p ->
    open_value lower parse w now p t = Some v <-> exists c, holds w p (Some c) /\ parse t c = Some v.
  Proof.
    intros w now p t v HP HL HU HT HR HW.
    assert (C : open_value lower parse w now p t = match content_after w p with Some c => parse t c | None => None end).
    { unfold open_value. destruct (fst (cache_get lower now p t (cache_run lower (cache_log parse w)))) as [x|] eqn:E; auto.
      apply lookup_spec in E; auto. destruct E as (l1 & t0 & p0 & l2 & E & [K1 K2] & _ & NC & _).
      unfold cache_log in E. apply flat_map_split in E as (k1 & [s e] & k2 & EW & EX & -> & ->); [|apply op_of_short].
      unfold cache_op_of in EX. cbn [fst snd] in EX. destruct e as [| |q u i| |]; try discriminate.
      destruct (content_after (firstn i w) q) as [c|] eqn:EC; [|discriminate].
      destruct (parse u c) as [x'|] eqn:EP; [|discriminate]. injection EX as -> -> ->.
      assert (Hin : In (t0, WOpened p0 u i) w) by (rewrite EW; apply in_or_app; right; now left).
      assert (p0 = p) by (apply (HL p0 None u i [] t0); auto). subst p0.
      assert (Hk : nth_error w (length k1) = Some (t0, WOpened p u i)) by (rewrite EW, nth_error_app2, Nat.sub_diag; auto).
      assert (HI : i <= length k1) by (eapply HR; eauto).
      assert (Q : forall t' d, ~ In (t', WWrite p d) (skipn i w)).
      { intros t' d Hi. apply In_nth_error in Hi as [m Hm].
        assert (Hm' : nth_error w (i + m) = Some (t', WWrite p d)).
        { rewrite <- (firstn_skipn i w). rewrite nth_error_app2; rewrite firstn_length_le; try lia.
          - now replace (i + m - i) with m by lia.
          - rewrite EW, app_length. lia.
          - rewrite EW, app_length. lia. }
        destruct (HW _ _ _ Hm') as (j & t2 & ps & Hj & Hn & Hp & Hall).
        assert (length k1 < j) by (eapply Hall; eauto; lia).
        apply (NC t2 ps p); auto. apply in_flat_map. exists (t2, WNotice ps). split; [|left; reflexivity].
        rewrite EW in Hn. rewrite nth_error_app2 in Hn by lia. destruct (j - length k1) as [|j'] eqn:Ej; [lia|]. cbn in Hn.
        eapply nth_error_In; eauto. }
      assert (content_after w p = Some c).
      { rewrite <- EC. rewrite <- (firstn_skipn i w) at 1. unfold content_after. rewrite fold_left_app. now apply content_quiet. }
      rewrite H. rewrite (HU t u); [now rewrite EP|].
      rewrite <- (ty_eqb_trans _ _ u K2). eauto. }
    rewrite C. split.
    - destruct (content_after w p) as [c|] eqn:E; [|discriminate]. intros H. exists c. split; auto. now apply content_unique.
    - intros (c & H & E). apply content_unique in H. now rewrite H.
  Qed.
End World.
