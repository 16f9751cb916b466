From Coq Require Import List NArith Arith Lia Bool Sorted Permutation.
From Verif Require Import Model.Base Model.TableCrate Model.Parts Spec.SortSpec Spec.PartsSpec Proofs.SortProofs.
Import ListNotations.

(** * Fallible iterators *)
Lemma rfind_ok : forall A (f : A -> res bool) g l, (forall x, In x l -> f x = Ok (g x)) -> rfind f l = Ok (find g l).
Proof.
  intros A f g l. induction l as [|x l IH]; intros H; [reflexivity|]. cbn. rewrite H by now left. cbn.
  destruct (g x); auto. apply IH. intros y Hy. apply H. now right.
Qed.
Lemma rfilter_ok : forall A (f : A -> res bool) g l, (forall x, In x l -> f x = Ok (g x)) -> rfilter f l = Ok (filter g l).
Proof.
  intros A f g l. induction l as [|x l IH]; intros H; [reflexivity|]. cbn. rewrite H by now left. cbn.
  rewrite IH by (intros y Hy; apply H; now right). cbn. now destruct (g x).
Qed.
Lemma rmapM_ok : forall A B (f : A -> res B) g l, (forall x, In x l -> f x = Ok (g x)) -> rmapM f l = Ok (map g l).
Proof.
  intros A B f g l. induction l as [|x l IH]; intros H; [reflexivity|]. cbn. rewrite H by now left. cbn.
  rewrite IH by (intros y Hy; apply H; now right). reflexivity.
Qed.

(** * [dedup] *)
Lemma dedup_in : forall l x, In x (dedup l) <-> In x l.
Proof.
  induction l as [|a l IH]; intros x; [tauto|]. cbn [dedup]. destruct l as [|b l]; [tauto|].
  destruct (Nat.eqb_spec a b) as [->|Hn].
  - rewrite IH. cbn. tauto.
  - cbn [In]. rewrite IH. cbn. tauto.
Qed.
Lemma dedup_sorted : forall l, StronglySorted le l -> StronglySorted lt (dedup l).
Proof.
  induction l as [|a l IH]; intros H; [constructor|]. inversion H; subst. cbn [dedup]. destruct l as [|b l]; [repeat constructor|].
  destruct (Nat.eqb_spec a b) as [->|Hn]; [auto|]. constructor; auto.
  apply Forall_forall. intros x Hx. apply (proj1 (dedup_in _ _)) in Hx. rewrite Forall_forall in H3.
  assert (a < b) by (specialize (H3 b (or_introl eq_refl)); lia).
  destruct Hx as [->|Hx]; auto. inversion H2; subst. rewrite Forall_forall in H6. specialize (H6 x Hx). lia.
Qed.
Lemma sorted_lt_nodup : forall l, StronglySorted lt l -> NoDup l.
Proof.
  induction l; intros H; constructor; inversion H; subst; auto. intros Hi. rewrite Forall_forall in H3. specialize (H3 _ Hi). lia.
Qed.

Lemma nat_compare_total : total_preorder Nat.compare.
Proof.
  split; [|split].
  - intros a _. apply Nat.compare_refl.
  - intros a b _ _. apply Nat.compare_antisym.
  - intros a b c _ _ _ H1 H2. rewrite Nat.compare_gt_iff in *. lia.
Qed.

Lemma sort_nat : forall so l, sort_contract so -> StronglySorted le (fst (so nat Nat.compare l)) /\ forall x, In x (fst (so nat Nat.compare l)) <-> In x l.
Proof.
  intros so l HS. destruct (HS nat Nat.compare l) as (P & S & _).
  destruct S as (_ & S & _).
  { destruct nat_compare_total as (A & B & C). split; [|split]; intros; eauto. }
  split.
  - clear -S. induction S; constructor; auto. eapply Forall_impl; [|exact H]. intros x Hx. now apply Nat.compare_le_iff.
  - intros x. split; intros H; [eapply Permutation_in; [apply Permutation_sym|]; eauto|eapply Permutation_in; eauto].
Qed.

Lemma sort_dedup : forall so l, sort_contract so ->
  StronglySorted lt (dedup (fst (so nat Nat.compare l))) /\ forall x, In x (dedup (fst (so nat Nat.compare l))) <-> In x l.
Proof.
  intros so l HS. destruct (sort_nat so l HS) as [A B]. split; [now apply dedup_sorted|]. intros x. rewrite dedup_in. apply B.
Qed.

(** * Comparing nodes *)
Definition rank_cmp (a b : pnode) : comparison := Nat.compare (kind_no (kind_of a)) (kind_no (kind_of b)).
Lemma node_cmp_lex : forall a b, node_cmp a b = match str_cmp (pn_name a) (pn_name b) with Eq => rank_cmp a b | c => c end.
Proof.
  intros a b. unfold node_cmp, rank_cmp, kind_of. destruct (str_cmp _ _); auto.
  destruct (pn_item a), (pn_item b); reflexivity.
Qed.
Lemma node_cmp_total : total_preorder node_cmp.
Proof.
  split; [|split].
  - intros a _. rewrite node_cmp_lex, str_cmp_refl. apply Nat.compare_refl.
  - intros a b _ _. rewrite !node_cmp_lex, (str_cmp_antisym (pn_name a)). destruct (str_cmp (pn_name a) (pn_name b)); auto.
    apply Nat.compare_antisym.
  - intros a b c _ _ _. rewrite !node_cmp_lex. intros H1 H2.
    assert (T : str_cmp (pn_name a) (pn_name c) <> Gt).
    { apply (str_cmp_trans _ (pn_name b)).
      - destruct (str_cmp (pn_name a) (pn_name b)); congruence.
      - destruct (str_cmp (pn_name b) (pn_name c)); congruence. }
    destruct (str_cmp (pn_name a) (pn_name c)) eqn:EC; [|discriminate|congruence].
    apply str_cmp_eq in EC. rewrite <- EC in H2. rewrite (str_cmp_antisym (pn_name a)) in H2.
    destruct (str_cmp (pn_name a) (pn_name b)) eqn:EB; cbn in H2; try congruence.
    unfold rank_cmp in *. rewrite Nat.compare_gt_iff in *. lia.
Qed.

Definition good_ids (ps : parts) (ids : list nat) : Prop := forall i, In i ids -> i < length ps.

Lemma id_cmp_total : forall ps ids, good_ids ps ids -> total_preorder_on (fun x => In x ids) (id_cmp ps).
Proof.
  intros ps ids HG. destruct node_cmp_total as (A & B & C).
  assert (G : forall i, In i ids -> exists n, nth_error ps i = Some n).
  { intros i Hi. destruct (nth_error ps i) eqn:E; eauto. apply nth_error_None in E. specialize (HG i Hi). lia. }
  unfold id_cmp. split; [|split].
  - intros a Ha. destruct (G a Ha) as [n ->]. apply A. exact I.
  - intros a b Ha Hb. destruct (G a Ha) as [n ->], (G b Hb) as [m ->]. apply B; exact I.
  - intros a b c Ha Hb Hc. destruct (G a Ha) as [n ->], (G b Hb) as [m ->], (G c Hc) as [k ->]. apply C; exact I.
Qed.

(** Ordered by name, then kind, then id. *)
Definition node_before (ps : parts) (i j : nat) : Prop :=
  exists n m, nth_error ps i = Some n /\ nth_error ps j = Some m /\
    (node_cmp n m = Lt \/ (node_cmp n m = Eq /\ i < j)).

Lemma from_vec_spec : forall so ps ids, sort_contract so -> good_ids ps ids ->
  exists s, from_vec so ps ids = Ok s /\ (forall x, In x s <-> In x ids) /\ NoDup s /\ StronglySorted (node_before ps) s.
Proof.
  intros so ps ids HS HG. unfold from_vec. destruct (sort_dedup so ids HS) as [S0 I0].
  set (ds := dedup (fst (so nat Nat.compare ids))) in *.
  assert (HG2 : good_ids ps ds) by (intros i Hi; apply HG, I0; auto).
  assert (EX : existsb (fun i => length ps <=? i) ds = false).
  { destruct (existsb _ ds) eqn:E; auto. apply existsb_exists in E as (i & Hi & E). apply Nat.leb_le in E. specialize (HG2 i Hi). lia. }
  rewrite EX, andb_false_r. eexists. split; [reflexivity|].
  destruct (HS nat (id_cmp ps) ds) as (P & S & _). destruct S as (_ & S & ST); [now apply id_cmp_total|].
  set (out := fst (so nat (id_cmp ps) ds)) in *.
  assert (II : forall x, In x out <-> In x ds).
  { intros x. split; intros H; [eapply Permutation_in; [apply Permutation_sym; exact P|auto]|eapply Permutation_in; eauto]. }
  assert (ND : NoDup out) by (eapply Permutation_NoDup; [exact P|]; now apply sorted_lt_nodup).
  split; [intros x; rewrite II; apply I0|]. split; auto.
  (* equal nodes keep increasing ids *)
  assert (EQ : forall l1 i l2 j l3, out = l1 ++ i :: l2 ++ j :: l3 -> id_cmp ps i j = Eq -> i < j).
  { intros l1 i l2 j l3 E C.
    assert (Hi : In i ds) by (apply II; rewrite E; apply in_or_app; right; now left).
    specialize (ST i Hi). rewrite E in ST. rewrite filter_app in ST. cbn [filter] in ST.
    assert (RI : eqv (id_cmp ps) i i = true).
    { unfold eqv. destruct (id_cmp_total ps ds HG2) as (A & _). now rewrite A. }
    rewrite RI in ST. rewrite filter_app in ST. cbn [filter] in ST.
    assert (RJ : eqv (id_cmp ps) i j = true) by (unfold eqv; now rewrite C). rewrite RJ in ST.
    assert (SF : StronglySorted lt (filter (eqv (id_cmp ps) i) ds)).
    { clear -S0. induction S0; cbn; [constructor|]. destruct (eqv _ _ _); auto. constructor; auto.
      apply Forall_forall. intros x Hx. apply filter_In in Hx as [Hx _]. rewrite Forall_forall in H. auto. }
    rewrite <- ST in SF. clear -SF. induction (filter (eqv (id_cmp ps) i) l1) as [|y q IH]; cbn in SF; inversion SF; subst; auto.
    rewrite Forall_forall in H2. apply H2. apply in_or_app. right. now left. }
  assert (G : forall l1 l2, out = l1 ++ l2 -> StronglySorted (node_before ps) l2).
  { intros l1 l2. revert l1. induction l2 as [|i l2 IH]; intros l1 E; [constructor|]. constructor.
    - apply (IH (l1 ++ [i])). now rewrite <- app_assoc.
    - apply Forall_forall. intros j Hj. apply in_split in Hj as (a & b & ->).
      assert (Hi : i < length ps) by (apply HG2, II; rewrite E; apply in_or_app; right; now left).
      assert (Hj : j < length ps) by (apply HG2, II; rewrite E; apply in_or_app; right; right; apply in_or_app; right; now left).
      destruct (nth_error ps i) as [n|] eqn:En; [|apply nth_error_None in En; lia].
      destruct (nth_error ps j) as [m|] eqn:Em; [|apply nth_error_None in Em; lia].
      exists n, m. split; auto. split; auto.
      assert (LE : id_cmp ps i j <> Gt).
      { clear - S E. rewrite E in S. clear E. induction l1 as [|y l1 IH]; cbn in S; inversion S; subst.
        - rewrite Forall_forall in H2. apply H2. apply in_or_app. right. now left.
        - auto. }
      specialize (EQ l1 i a j b E). unfold id_cmp in *. rewrite En, Em in *. destruct (node_cmp n m); auto. congruence. }
  apply (G []). reflexivity.
Qed.

(** Names and kinds of the members are as in another state. *)
Definition same_nodes (ps ps' : parts) (ids : list nat) : Prop :=
  forall i k p s, In i ids -> node_is ps i k p s -> node_is ps' i k p s.

Lemma before_same : forall ps ps' ids i j, same_nodes ps ps' ids -> In i ids -> In j ids -> node_before ps i j -> node_before ps' i j.
Proof.
  intros ps ps' ids i j HS Hi Hj (n & m & En & Em & H).
  destruct (HS i (kind_of n) (pn_parent n) (pn_name n) Hi) as (n' & En' & K1 & _ & N1); [exists n; auto|].
  destruct (HS j (kind_of m) (pn_parent m) (pn_name m) Hj) as (m' & Em' & K2 & _ & N2); [exists m; auto|].
  exists n', m'. split; auto. split; auto. rewrite node_cmp_lex in *. unfold rank_cmp in *. rewrite K1, K2, N1, N2. exact H.
Qed.

Lemma filter_split_sorted : forall (ps : parts) name s, StronglySorted (node_before ps) s -> good_ids ps s ->
  exists a b c, s = a ++ b ++ c /\ (forall x, In x a -> name_lt ps name x = true) /\
    (forall x, In x (b ++ c) -> name_lt ps name x = false) /\
    (forall x, In x (a ++ b) -> name_le ps name x = true) /\ (forall x, In x c -> name_le ps name x = false).
Proof.
  intros ps name s H. induction H as [|i s HS IH HF]; intros HG.
  - exists [], [], []. cbn. repeat split; intros ? [].
  - destruct IH as (a & b & c & -> & A1 & A2 & A3 & A4); [intros j Hj; apply HG; now right|].
    assert (Hi : i < length ps) by (apply HG; now left).
    destruct (nth_error ps i) as [n|] eqn:En; [|apply nth_error_None in En; lia].
    rewrite Forall_forall in HF.
    assert (LE : forall j, In j (a ++ b ++ c) -> exists m, nth_error ps j = Some m /\ str_cmp (pn_name n) (pn_name m) <> Gt).
    { intros j Hj. destruct (HF j Hj) as (n' & m & E1 & E2 & HC). rewrite En in E1. injection E1 as <-. exists m. split; auto.
      rewrite node_cmp_lex in HC. intros X. rewrite X in HC. destruct HC as [HC|[HC _]]; discriminate. }
    destruct (str_cmp (pn_name n) name) eqn:EC.
    + (* equal: nothing before is smaller *)
      assert (a = []).
      { destruct a as [|j a]; auto. exfalso. destruct (LE j) as (m & Em & HL); [now left|].
        specialize (A1 j (or_introl eq_refl)). unfold name_lt in A1. rewrite Em in A1. apply str_cmp_eq in EC. rewrite EC in HL.
        rewrite (str_cmp_antisym (pn_name m)) in HL. destruct (str_cmp (pn_name m) name); try discriminate. now apply HL. }
      subst a. exists [], (i :: b), c. cbn [app]. split; auto.
      assert (L1 : name_lt ps name i = false) by (unfold name_lt; now rewrite En, EC).
      assert (L2 : name_le ps name i = true) by (unfold name_le; now rewrite En, EC).
      split; [intros x []|]. split; [intros x [<-|Hx]; auto|]. split; [intros x [<-|Hx]; auto|]. auto.
    + exists (i :: a), b, c. cbn [app]. split; auto.
      assert (L1 : name_lt ps name i = true) by (unfold name_lt; now rewrite En, EC).
      assert (L2 : name_le ps name i = true) by (unfold name_le; now rewrite En, EC).
      repeat split; auto; intros x [<-|Hx]; auto.
    + assert (ab : a = [] /\ b = []).
      { assert (X : forall j, In j (a ++ b) -> False).
        { intros j Hj. destruct (LE j) as (m & Em & HL); [rewrite app_assoc; apply in_or_app; auto|].
          specialize (A3 j Hj). unfold name_le in A3. rewrite Em in A3.
          apply (str_cmp_trans (pn_name n) (pn_name m) name HL); [|exact EC]. intros Y. rewrite Y in A3. discriminate. }
        split; [destruct a as [|j a]; auto|destruct b as [|j b]; auto]; exfalso; apply (X j); apply in_or_app; [left|right]; now left. }
      destruct ab as [-> ->]. exists [], [], (i :: c). cbn [app].
      assert (L1 : name_lt ps name i = false) by (unfold name_lt; now rewrite En, EC).
      assert (L2 : name_le ps name i = false) by (unfold name_le; now rewrite En, EC).
      split; [reflexivity|]. split; [intros x []|]. split; [intros x [<-|Hx]; auto|]. split; [intros x []|]. intros x [<-|Hx]; auto.
Qed.

Lemma set_find_spec : forall pp ps s name, partition_contract pp -> good_ids ps s -> StronglySorted (node_before ps) s ->
  set_find pp ps s name = Ok (filter (fun i => match nth_error ps i with Some n => str_eqb (pn_name n) name | None => false end) s).
Proof.
  intros pp ps s name HP HG HS. unfold set_find.
  assert (EX : existsb (fun i => length ps <=? i) s = false).
  { destruct (existsb _ s) eqn:E; auto. apply existsb_exists in E as (i & Hi & E). apply Nat.leb_le in E. specialize (HG i Hi). lia. }
  rewrite EX. destruct (filter_split_sorted ps name s HS HG) as (a & b & c & -> & A1 & A2 & A3 & A4).
  assert (LW := HP nat (name_lt ps name) a (b ++ c) A1 A2).
  assert (UP := HP nat (name_le ps name) (a ++ b) c A3 A4). rewrite <- app_assoc in UP. rewrite LW, UP, !app_length.
  replace (length a <=? length a + length b) with true by (symmetry; apply Nat.leb_le; lia).
  replace (length a + length b <=? length a + (length b + length c)) with true by (symmetry; apply Nat.leb_le; lia).
  cbn [andb]. f_equal. replace (length a + length b - length a) with (length b) by lia.
  rewrite skipn_app, skipn_all, Nat.sub_diag. cbn [app skipn]. rewrite firstn_app, firstn_all, Nat.sub_diag. cbn [firstn]. rewrite app_nil_r.
  assert (F : forall l, (forall x, In x l -> match nth_error ps x with Some n => str_eqb (pn_name n) name | None => false end = false) ->
     filter (fun i => match nth_error ps i with Some n => str_eqb (pn_name n) name | None => false end) l = []).
  { induction l as [|x l IH]; intros H; [reflexivity|]. cbn. rewrite H by now left. apply IH. intros y Hy. apply H. now right. }
  assert (T : forall l, (forall x, In x l -> match nth_error ps x with Some n => str_eqb (pn_name n) name | None => false end = true) ->
     filter (fun i => match nth_error ps i with Some n => str_eqb (pn_name n) name | None => false end) l = l).
  { induction l as [|x l IH]; intros H; [reflexivity|]. cbn. rewrite H by now left. f_equal. apply IH. intros y Hy. apply H. now right. }
  rewrite !filter_app, (F a), (T b), (F c), app_nil_r; auto.
  - intros x Hx. specialize (A4 x Hx). unfold name_le in A4. destruct (nth_error ps x) as [n|]; auto.
    apply str_eqb_neq. intros E. rewrite E, str_cmp_refl in A4. discriminate.
  - intros x Hx. assert (B1 : name_lt ps name x = false) by (apply A2, in_or_app; auto).
    assert (B2 : name_le ps name x = true) by (apply A3, in_or_app; auto). unfold name_lt in B1. unfold name_le in B2.
    destruct (nth_error ps x) as [n|]; [|discriminate]. apply str_eqb_eq, str_cmp_eq. destruct (str_cmp (pn_name n) name); auto; discriminate.
  - intros x Hx. specialize (A1 x Hx). unfold name_lt in A1. destruct (nth_error ps x) as [n|]; auto.
    apply str_eqb_neq. intros E. rewrite E, str_cmp_refl in A1. discriminate.
Qed.

(** ** The properties *)
Theorem set_members : forall so ps ids, sort_contract so -> (forall i, In i ids -> i < length ps) ->
  exists s, from_vec so ps ids = Ok s /\ NoDup s /\ forall i, In i s <-> In i ids.
Proof. intros so ps ids HS HG. destruct (from_vec_spec so ps ids HS HG) as (s & E & I & N & _). exists s. auto. Qed.

Theorem set_lookup : forall so pp ps ps' ids s name, sort_contract so -> partition_contract pp ->
  (forall i, In i ids -> i < length ps) -> (forall i k p t, In i ids -> node_is ps i k p t -> node_is ps' i k p t) ->
  from_vec so ps ids = Ok s ->
  exists r, set_find pp ps' s name = Ok r /\
    (forall i, In i r <-> In i ids /\ named ps' i name) /\
    StronglySorted (fun i j => exists ki kj, is_kind ps' i ki /\ is_kind ps' j kj /\
                                 (kind_no ki < kind_no kj \/ (ki = kj /\ i < j))) r.
Proof.
  intros so pp ps ps' ids s name HS HP HG HN E. destruct (from_vec_spec so ps ids HS HG) as (s' & E' & I & N & SO).
  rewrite E in E'. injection E' as <-.
  assert (HG' : good_ids ps' s).
  { intros i Hi. apply I in Hi. assert (Hl : i < length ps) by auto. destruct (nth_error ps i) as [n|] eqn:En; [|apply nth_error_None in En; lia].
    destruct (HN i (kind_of n) (pn_parent n) (pn_name n) Hi) as (n' & En' & _); [exists n; auto|]. apply nth_error_Some. congruence. }
  assert (SO' : StronglySorted (node_before ps') s).
  { assert (X : forall i, In i s -> In i ids) by (intros i; apply I). clear - SO X HN. induction SO; constructor.
    - apply IHSO. intros i Hi. apply X. now right.
    - rewrite Forall_forall in *. intros j Hj. eapply before_same; eauto; apply X; [now left|now right]. }
  rewrite (set_find_spec pp ps' s name HP HG' SO'). eexists. split; [reflexivity|].
  assert (MEM : forall i, In i (filter (fun i => match nth_error ps' i with Some n => str_eqb (pn_name n) name | None => false end) s)
      <-> In i ids /\ named ps' i name).
  { intros i. rewrite filter_In, I. split; intros [H1 H2]; split; auto.
    - destruct (nth_error ps' i) as [n|] eqn:En; [|discriminate]. apply str_eqb_eq in H2. exists (kind_of n), (pn_parent n), n. auto.
    - destruct H2 as (k & p & n & En & _ & _ & Hn). rewrite En. now apply str_eqb_eq. }
  split; [exact MEM|].
  assert (Q : forall l, StronglySorted (node_before ps') l -> (forall i, In i l -> named ps' i name) ->
    StronglySorted (fun i j => exists ki kj, is_kind ps' i ki /\ is_kind ps' j kj /\ (kind_no ki < kind_no kj \/ (ki = kj /\ i < j))) l).
  { clear. intros l H. induction H as [|i l HS IH HF]; intros HN; constructor.
    - apply IH. intros j Hj. apply HN. now right.
    - rewrite Forall_forall in *. intros j Hj. destruct (HF j Hj) as (n & m & En & Em & HC).
      destruct (HN i (or_introl eq_refl)) as (k1 & p1 & n1 & E1 & _ & _ & N1). rewrite En in E1. injection E1 as <-.
      destruct (HN j (or_intror Hj)) as (k2 & p2 & n2 & E2 & _ & _ & N2). rewrite Em in E2. injection E2 as <-.
      exists (kind_of n), (kind_of m). split; [exists (pn_parent n), (pn_name n), n; auto|]. split; [exists (pn_parent m), (pn_name m), m; auto|].
      rewrite node_cmp_lex, N1, N2, str_cmp_refl in HC. unfold rank_cmp in HC. destruct HC as [HC|[HC HL]].
      + left. now apply Nat.compare_lt_iff.
      + right. split; auto. apply Nat.compare_eq_iff in HC. destruct (kind_of n), (kind_of m); auto; discriminate. }
  apply Q; [|intros i Hi; now apply MEM].
  clear - SO'. induction SO'; cbn; [constructor|]. destruct (match nth_error ps' a with Some _ => _ | None => _ end); auto. constructor; auto.
  rewrite Forall_forall in *. intros j Hj. apply filter_In in Hj as [Hj _]. auto.
Qed.
