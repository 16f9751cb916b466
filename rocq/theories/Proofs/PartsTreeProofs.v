From Coq Require Import String List NArith Arith Lia Bool Sorted Permutation.
From Verif Require Import Model.Base Model.TableCrate Model.Parts Spec.PartsSpec Proofs.PartSetProofs.
Import ListNotations.

(** * Basics *)
Lemma upd_length : forall A (f : A -> A) l i, length (upd i f l) = length l.
Proof. intros A f l. induction l; intros [|i]; cbn; auto. Qed.
Lemma nth_upd : forall A (f : A -> A) l i j, nth_error (upd i f l) j = if i =? j then option_map f (nth_error l j) else nth_error l j.
Proof. intros A f l. induction l; intros [|i] [|j]; cbn; auto. now destruct (i =? j). Qed.

Lemma nth_some : forall A (l : list A) i, i < length l -> exists x, nth_error l i = Some x.
Proof. intros A l i H. destruct (nth_error l i) eqn:E; eauto. apply nth_error_None in E. lia. Qed.
Lemma nth_lt : forall A (l : list A) i x, nth_error l i = Some x -> i < length l.
Proof. intros. apply nth_error_Some. congruence. Qed.

Lemma node_fun : forall ps i k p s k' p' s', node_is ps i k p s -> node_is ps i k' p' s' -> k = k' /\ p = p' /\ s = s'.
Proof. intros ps i k p s k' p' s' (n & E & <- & <- & <-) (m & E' & <- & <- & <-). rewrite E in E'. injection E' as <-. auto. Qed.
Lemma node_lt : forall ps i k p s, node_is ps i k p s -> i < length ps.
Proof. intros ps i k p s (n & E & _). eapply nth_lt; eauto. Qed.
Lemma node_ex : forall ps i, i < length ps -> exists k p s, node_is ps i k p s.
Proof. intros ps i H. destruct (nth_some _ ps i H) as (n & E). exists (kind_of n), (pn_parent n), (pn_name n), n. auto. Qed.
Lemma kind_fun : forall ps i k k', is_kind ps i k -> is_kind ps i k' -> k = k'.
Proof. intros ps i k k' (p & s & H) (p' & s' & H'). now destruct (node_fun _ _ _ _ _ _ _ _ H H'). Qed.
Lemma exports_fun : forall ps b l l', exports_of ps b l -> exports_of ps b l' -> l = l'.
Proof. intros ps b l l' (n & cs & E & I) (n' & cs' & E' & I'). congruence. Qed.
Lemma imports_fun : forall ps b l l', imports_of ps b l -> imports_of ps b l' -> l = l'.
Proof. intros ps b l l' (n & E & I) (n' & E' & I'). rewrite E in E'. injection E' as <-. destruct I as [I|I], I' as [I'|I']; congruence. Qed.
Lemma exports_kind : forall ps b l, exports_of ps b l -> is_kind ps b KBoundary.
Proof. intros ps b l (n & cs & E & I). exists (pn_parent n), (pn_name n), n. unfold kind_of. now rewrite I. Qed.
Lemma boundary_item : forall ps b, is_kind ps b KBoundary -> exists n e cs, nth_error ps b = Some n /\ pn_item n = PBoundary e cs.
Proof. intros ps b (p & s & n & E & K & _). unfold kind_of in K. destruct (pn_item n) eqn:I; try discriminate. eauto. Qed.

Lemma is_boundary_kind : forall n, is_boundary n = true <-> kind_of n = KBoundary.
Proof. intros n. unfold is_boundary, kind_of. destruct (pn_item n); split; auto; discriminate. Qed.
Lemma is_type_kind : forall n, is_type n = true <-> kind_of n = KType.
Proof. intros n. unfold is_type, kind_of. destruct (pn_item n); split; auto; discriminate. Qed.
Lemma is_impl_kind : forall n, is_impl n = true <-> kind_of n = KImpl.
Proof. intros n. unfold is_impl, kind_of. destruct (pn_item n); split; auto; discriminate. Qed.

(** Children of a boundary. *)
Lemma tree_children : forall ps b, tree ps -> is_kind ps b KBoundary ->
  exists cs, pchildren ps b = Ok cs /\ forall i, In i cs <-> child_of ps i b.
Proof.
  intros ps b T HB. destruct (boundary_item _ _ HB) as (n & e & cs & E & I). exists cs. unfold pchildren, pget. rewrite E. cbn. rewrite I.
  split; auto. apply (t_children _ T b n e cs E I).
Qed.
Lemma child_lt : forall ps i b, child_of ps i b -> i < length ps.
Proof. intros ps i b (k & s & H). eapply node_lt; eauto. Qed.
Lemma tree_parent : forall ps i k p s, tree ps -> node_is ps i k (Some p) s -> p < i /\ is_kind ps p KBoundary.
Proof.
  intros ps i k p s T (n & E & K & P & N). destruct (le_lt_dec 3 i) as [L|L].
  - destruct (t_parent _ T i n L E) as (q & Q & H1 & H2). rewrite P in Q. injection Q as <-. auto.
  - destruct (t_roots _ T) as [_ R]. destruct (R i n L E) as [R1 _]. congruence.
Qed.
Lemma tree_root : forall ps i, tree ps -> i < 3 -> is_kind ps i KBoundary.
Proof.
  intros ps i T H. destruct (t_roots _ T) as [L R]. destruct (nth_some _ ps i) as (n & E); [lia|]. destruct (R i n H E) as [_ K].
  exists (pn_parent n), (pn_name n), n. auto.
Qed.

(** Looking for a child. *)
Lemma child_search : forall ps b (g : pnode -> bool), tree ps -> is_kind ps b KBoundary ->
  exists cs, pchildren ps b = Ok cs /\
    rfind (fun n => let? nd := pget ps n in Ok (g nd)) cs = Ok (find (fun n => match nth_error ps n with Some nd => g nd | None => false end) cs) /\
    (forall i, In i cs <-> child_of ps i b).
Proof.
  intros ps b g T HB. destruct (tree_children ps b T HB) as (cs & E & I). exists cs. split; auto. split; auto.
  apply rfind_ok. intros i Hi. apply I, child_lt, nth_some in Hi as (n & En). unfold pget. rewrite En. reflexivity.
Qed.

(** * Adding a node *)
Definition added (ps ps' : parts) (b : nat) (k : kind) (s : str) : Prop :=
  length ps' = S (length ps) /\
  (forall i k' p t, node_is ps' i k' p t <-> node_is ps i k' p t \/ (i = length ps /\ k' = k /\ p = Some b /\ t = s)) /\
  (forall i l, imports_of ps' i l <-> imports_of ps i l \/ (i = length ps /\ k <> KBoundary /\ l = [])) /\
  (forall i l, exports_of ps' i l <-> exports_of ps i l \/ (i = length ps /\ k = KBoundary /\ l = [])).

Definition item_of (k : kind) : pitem := match k with KBoundary => PBoundary [] [] | KType => PType [] | KImpl => PImpl [] end.

Lemma add_child_same : forall c n, kind_of (add_child c n) = kind_of n /\ pn_parent (add_child c n) = pn_parent n /\ pn_name (add_child c n) = pn_name n.
Proof. intros c n. unfold add_child, kind_of. destruct (pn_item n) eqn:I; cbn; try rewrite I; auto. Qed.

Lemma nth_added : forall ps b c nd i, b < length ps -> nth_error (upd b (add_child c) (ps ++ [nd])) i =
  if i <? length ps then (if b =? i then option_map (add_child c) (nth_error ps i) else nth_error ps i)
  else if i =? length ps then Some nd else None.
Proof.
  intros ps b c nd i HB. rewrite nth_upd. destruct (Nat.ltb_spec i (length ps)) as [L|L].
  - rewrite nth_error_app1 by auto. reflexivity.
  - rewrite nth_error_app2 by auto. destruct (Nat.eqb_spec b i); [lia|]. destruct (Nat.eqb_spec i (length ps)) as [->|H].
    + now rewrite Nat.sub_diag.
    + destruct (i - length ps) as [|[|]] eqn:E; cbn; auto; lia.
Qed.

Lemma add_node_added : forall ps b s k, is_kind ps b KBoundary ->
  exists ps', add_node ps b s (item_of k) = Ok (length ps, ps') /\ added ps ps' b k s /\
    (forall i n' e cs', nth_error ps' i = Some n' -> pn_item n' = PBoundary e cs' ->
       (i = length ps /\ cs' = []) \/
       exists n cs, nth_error ps i = Some n /\ pn_item n = PBoundary e cs /\ cs' = if i =? b then cs ++ [length ps] else cs).
Proof.
  intros ps b s k HB. destruct (boundary_item _ _ HB) as (nb & eb & cb & Eb & Ib). assert (Lb := nth_lt _ _ _ _ Eb).
  unfold add_node. rewrite app_length. cbn [length]. replace (b <? length ps + 1) with true by (symmetry; apply Nat.ltb_lt; lia).
  eexists. split; [reflexivity|]. set (nd := PNode s (Some b) (item_of k)).
  assert (KN : kind_of nd = k) by (unfold nd, kind_of; now destruct k).
  split; [split; [|split; [|split]]|].
  - rewrite upd_length, app_length. cbn. lia.
  - intros i k' p t. unfold node_is. rewrite nth_added by auto. destruct (Nat.ltb_spec i (length ps)) as [L|L].
    + destruct (nth_some _ ps i L) as (n & En). rewrite En. destruct (Nat.eqb_spec b i) as [->|Hn]; cbn [option_map].
      * destruct (add_child_same (length ps) n) as (A & B & C). split.
        -- intros (m & [= <-] & M1 & M2 & M3). left. exists n. rewrite A in M1. rewrite B in M2. rewrite C in M3. auto.
        -- intros [(m & [= <-] & M1 & M2 & M3)|(-> & _)]; [|lia]. exists (add_child (length ps) n). rewrite A, B, C. auto.
      * split; [auto|]. intros [H|(-> & _)]; [auto|lia].
    + assert (EN : nth_error ps i = None) by (apply nth_error_None; lia). rewrite EN. destruct (Nat.eqb_spec i (length ps)) as [->|Hn].
      * split.
        -- intros (m & [= <-] & <- & <- & <-). right. rewrite KN. auto.
        -- intros [(m & [=] & _)|(_ & -> & -> & ->)]. exists nd. auto.
      * split; [intros (m & [=] & _)|]. intros [(m & [=] & _)|(H & _)]. contradiction.
  - intros i l. unfold imports_of. rewrite nth_added by auto. destruct (Nat.ltb_spec i (length ps)) as [L|L].
    + destruct (nth_some _ ps i L) as (n & En). rewrite En. destruct (Nat.eqb_spec b i) as [->|Hn]; cbn [option_map].
      * rewrite Eb in En. injection En as <-. split.
        -- intros (m & [= <-] & M). unfold add_child in M. rewrite Ib in M. cbn in M. destruct M; discriminate.
        -- intros [(m & [= <-] & M)|(-> & _)]; [|lia]. rewrite Ib in M. destruct M; discriminate.
      * split; [auto|]. intros [H|(-> & _)]; [auto|lia].
    + assert (EN : nth_error ps i = None) by (apply nth_error_None; lia). rewrite EN. destruct (Nat.eqb_spec i (length ps)) as [->|Hn].
      * split.
        -- intros (m & [= <-] & M). right. unfold nd in M. destruct k; cbn in M; destruct M as [M|M]; try discriminate; injection M as <-; split; auto; split; auto; discriminate.
        -- intros [(m & [=] & _)|(_ & H & ->)]. exists nd. split; auto. unfold nd. destruct k; cbn; auto. now contradiction H.
      * split; [intros (m & [=] & _)|]. intros [(m & [=] & _)|(H & _)]. contradiction.
  - intros i l. unfold exports_of. rewrite nth_added by auto. destruct (Nat.ltb_spec i (length ps)) as [L|L].
    + destruct (nth_some _ ps i L) as (n & En). rewrite En. destruct (Nat.eqb_spec b i) as [->|Hn]; cbn [option_map].
      * rewrite Eb in En. injection En as <-. unfold add_child. rewrite Ib. split.
        -- intros (m & cs & [= <-] & M). cbn in M. injection M as <- <-. left. exists nb, cb. auto.
        -- intros [(m & cs & [= <-] & M)|(-> & _)]; [|lia]. rewrite Ib in M. injection M as <- <-. eexists _, _. split; [reflexivity|]. cbn. reflexivity.
      * split; [auto|]. intros [H|(-> & _)]; [auto|lia].
    + assert (EN : nth_error ps i = None) by (apply nth_error_None; lia). rewrite EN. destruct (Nat.eqb_spec i (length ps)) as [->|Hn].
      * split.
        -- intros (m & cs & [= <-] & M). right. unfold nd in M. destruct k; cbn in M; try discriminate. injection M as <- <-. auto.
        -- intros [(m & cs & [=] & _)|(_ & -> & ->)]. exists nd, []. auto.
      * split; [intros (m & cs & [=] & _)|]. intros [(m & cs & [=] & _)|(H & _)]. contradiction.
  - intros i n' e cs' H I. rewrite nth_added in H by auto. destruct (Nat.ltb_spec i (length ps)) as [L|L].
    + right. destruct (nth_some _ ps i L) as (n & En). rewrite En in H. rewrite (Nat.eqb_sym i b). destruct (Nat.eqb_spec b i) as [->|Hn]; cbn [option_map] in H; injection H as <-.
      * rewrite Eb in En. injection En as <-. unfold add_child in I. rewrite Ib in I. cbn in I. injection I as <- <-. exists nb, cb. auto.
      * exists n, cs'. auto.
    + left. destruct (Nat.eqb_spec i (length ps)) as [->|Hn]; [|discriminate]. injection H as <-. split; auto. unfold nd in I. destruct k; cbn in I; congruence.
Qed.

Lemma sorted_app_last : forall l x, StronglySorted lt l -> (forall y, In y l -> y < x) -> StronglySorted lt (l ++ [x]).
Proof.
  induction l as [|a l IH]; intros x H HL; cbn; [repeat constructor|]. inversion H; subst. constructor.
  - apply IH; auto. intros y Hy. apply HL. now right.
  - apply Forall_forall. intros y Hy. rewrite Forall_forall in H3. apply in_app_or in Hy as [Hy|[<-|[]]]; auto. apply HL. now left.
Qed.

Lemma add_node_tree : forall ps b s k, tree ps -> is_kind ps b KBoundary -> (k = KBoundary -> good_name s) ->
  (k <> KImpl -> forall j, ~ node_is ps j k (Some b) s) ->
  exists ps', add_node ps b s (item_of k) = Ok (length ps, ps') /\ added ps ps' b k s /\ tree ps'.
Proof.
  intros ps b s k T HB HG HU. destruct (add_node_added ps b s k HB) as (ps' & E & A & C). exists ps'. split; auto. split; auto.
  destruct A as (AL & AN & AI & AE).
  assert (BL : b < length ps) by (destruct HB as (p & t & H); eapply node_lt; eauto).
  assert (KK : forall i k', is_kind ps i k' -> is_kind ps' i k') by (intros i k' (p & t & H); exists p, t; apply AN; auto).
  assert (CH : forall i b', child_of ps' i b' <-> child_of ps i b' \/ (i = length ps /\ b' = b)).
  { intros i b'. split.
    - intros (k' & t & H). apply AN in H as [H|(-> & -> & H & ->)]; [left; exists k', t; auto|]. injection H as ->. auto.
    - intros [(k' & t & H)|(-> & ->)]; [exists k', t; apply AN; auto|]. exists k, s. apply AN. auto. }
  assert (L3 := proj1 (t_roots _ T)).
  constructor.
  - split; [lia|]. intros i n Hi En.
    assert (HN : node_is ps' i (kind_of n) (pn_parent n) (pn_name n)) by (exists n; auto).
    apply AN in HN as [(m & Em & M1 & M2 & _)|(-> & _)]; [|lia]. destruct (t_roots _ T) as [_ R]. destruct (R i m Hi Em). split; congruence.
  - intros i n Hi En. assert (HN : node_is ps' i (kind_of n) (pn_parent n) (pn_name n)) by (exists n; auto).
    apply AN in HN as [HN|(-> & _ & -> & _)].
    + destruct HN as (m & Em & M1 & M2 & _). destruct (t_parent _ T i m Hi Em) as (p & P1 & P2 & P3). exists p. split; [congruence|]. auto.
    + exists b. auto.
  - intros b' n' e cs' E' I'. destruct (C b' n' e cs' E' I') as [(-> & ->)|(n & cs & En & In' & ->)].
    + split; [constructor|]. intros i. split; [intros []|]. intros H. apply CH in H as [(k' & t & H)|(_ & H)]; [|lia].
      assert (i < length ps) by (eapply node_lt; eauto). destruct (tree_parent _ _ _ _ _ T H). lia.
    + destruct (t_children _ T b' n e cs En In') as [S I]. destruct (Nat.eqb_spec b' b) as [->|Hn].
      * split.
        -- apply sorted_app_last; auto. intros y Hy. apply I in Hy. eapply child_lt; eauto.
        -- intros i. rewrite in_app_iff, I, CH. cbn. split; [intros [H|[<-|[]]]; auto|intros [H|(-> & _)]; auto].
      * split; auto. intros i. rewrite I, CH. split; [auto|]. intros [H|(_ & H)]; auto. contradiction.
  - intros i j k' p t Hk Hi Hj. apply AN in Hi as [Hi|(-> & -> & Hp & ->)]; apply AN in Hj as [Hj|(-> & Hk2 & Hp2 & Ht2)].
    + eapply (t_unique _ T); eauto.
    + exfalso. subst. injection Hp2 as ->. eapply HU; eauto.
    + exfalso. injection Hp as ->. eapply HU; eauto.
    + reflexivity.
  - intros i p t H. apply AN in H as [H|(-> & H & _ & ->)]; [eapply (t_names _ T); eauto|auto].
  - intros b' l i H Hi. apply AE in H as [H|(_ & _ & ->)]; [|destruct Hi]. destruct (t_exports _ T b' l i H Hi) as [X Y]. split; [apply CH; auto|].
    intros (p & t & Z). apply AN in Z as [Z|(-> & _)]; [apply Y; exists p, t; auto|]. apply child_lt in X. lia.
  - intros j l i H Hi. apply AI in H as [H|(_ & _ & ->)]; [|destruct Hi]. assert (i < length ps) by (eapply (t_imports _ T); eauto). lia.
Qed.

(** ** New nodes of any number *)
Definition ext (ps ps' : parts) : Prop :=
  length ps <= length ps' /\ grows ps ps' /\
  (forall i l, imports_of ps' i l <-> imports_of ps i l \/ (length ps <= i /\ (exists k, is_kind ps' i k /\ k <> KBoundary) /\ l = [])) /\
  (forall i l, exports_of ps' i l <-> exports_of ps i l \/ (length ps <= i /\ is_kind ps' i KBoundary /\ l = [])) /\
  (forall i, length ps <= i -> is_kind ps' i KBoundary -> exists p, at_path ps' p i).

Lemma grows_kind : forall ps ps' i k, grows ps ps' -> is_kind ps i k -> is_kind ps' i k.
Proof. intros ps ps' i k G (p & s & H). exists p, s. auto. Qed.
Lemma grows_path : forall ps ps' p b, grows ps ps' -> at_path ps p b -> at_path ps' p b.
Proof. intros ps ps' p b G H. induction H; [constructor|]. econstructor; eauto. Qed.
Lemma grows_back : forall ps ps' i k p s, grows ps ps' -> i < length ps -> node_is ps' i k p s -> node_is ps i k p s.
Proof. intros ps ps' i k p s G L H. destruct (node_ex ps i L) as (k' & p' & s' & H'). destruct (node_fun _ _ _ _ _ _ _ _ H (G _ _ _ _ H')) as (-> & -> & ->). auto. Qed.
Lemma grows_kind_back : forall ps ps' i k, grows ps ps' -> i < length ps -> is_kind ps' i k -> is_kind ps i k.
Proof. intros ps ps' i k G L (p & s & H). exists p, s. eapply grows_back; eauto. Qed.
Lemma grows_refl : forall ps, grows ps ps. Proof. intros ps i k p s H. exact H. Qed.
Lemma grows_trans : forall a b c, grows a b -> grows b c -> grows a c.
Proof. intros a b c H1 H2 i k p s H. auto. Qed.

Lemma imports_lt : forall ps i l, imports_of ps i l -> i < length ps.
Proof. intros ps i l (n & E & _). eapply nth_lt; eauto. Qed.
Lemma exports_lt : forall ps i l, exports_of ps i l -> i < length ps.
Proof. intros ps i l (n & cs & E & _). eapply nth_lt; eauto. Qed.

Lemma ext_refl : forall ps, ext ps ps.
Proof.
  intros ps. split; auto. split; [apply grows_refl|]. split; [|split].
  - intros i l. split; auto. intros [H|(H & (k & (p & s & K) & _) & _)]; auto. apply node_lt in K. lia.
  - intros i l. split; auto. intros [H|(H & (p & s & K) & _)]; auto. apply node_lt in K. lia.
  - intros i H (p & s & K). apply node_lt in K. lia.
Qed.
Lemma ext_trans : forall a b c, ext a b -> ext b c -> ext a c.
Proof.
  intros a b c (L1 & G1 & I1 & E1 & P1) (L2 & G2 & I2 & E2 & P2). split; [lia|]. split; [eapply grows_trans; eauto|]. split; [|split].
  - intros i l. rewrite I2, I1. split.
    + intros [[H|(H & (k & K & N) & ->)]|(H & (k & K & N) & ->)]; auto.
      * right. split; auto. split; auto. exists k. split; auto. eapply grows_kind; eauto.
      * right. split; [lia|]. split; auto. exists k. auto.
    + intros [H|(H & (k & K & N) & ->)]; auto. destruct (le_lt_dec (length b) i).
      * right. split; auto. split; auto. exists k. auto.
      * left. right. split; auto. split; auto. exists k. split; auto. eapply grows_kind_back; eauto.
  - intros i l. rewrite E2, E1. split.
    + intros [[H|(H & K & ->)]|(H & K & ->)]; auto.
      * right. split; auto. split; auto. eapply grows_kind; eauto.
      * right. split; [lia|]. auto.
    + intros [H|(H & K & ->)]; auto. destruct (le_lt_dec (length b) i); auto.
      left. right. split; auto. split; auto. eapply grows_kind_back; eauto.
  - intros i H K. destruct (le_lt_dec (length b) i); auto. destruct (P1 i H) as (p & P); [eapply grows_kind_back; eauto|].
    exists p. eapply grows_path; eauto.
Qed.

Lemma added_ext : forall ps ps' b k s path, added ps ps' b k s -> at_path ps path b -> ext ps ps'.
Proof.
  intros ps ps' b k s path (AL & AN & AI & AE) HP. assert (G : grows ps ps') by (intros i k' p t H; apply AN; auto).
  assert (NEW : node_is ps' (length ps) k (Some b) s) by (apply AN; auto).
  split; [lia|]. split; auto. split; [|split].
  - intros i l. rewrite AI. split; intros [H|H]; auto.
    + destruct H as (-> & K & ->). right. split; auto. split; auto. exists k. split; auto. exists (Some b), s. auto.
    + destruct H as (L & (k' & (p & t & K) & N) & ->). apply AN in K as [K|(-> & -> & _)]; [apply node_lt in K; lia|]. auto.
  - intros i l. rewrite AE. split; intros [H|H]; auto.
    + destruct H as (-> & -> & ->). right. split; auto. split; auto. exists (Some b), s. auto.
    + destruct H as (L & (p & t & K) & ->). apply AN in K as [K|(-> & <- & _)]; [apply node_lt in K; lia|]. auto.
  - intros i L (p & t & K). assert (K' := K). apply AN in K as [K|(-> & <- & _)]; [apply node_lt in K; lia|]. exists (path ++ [s]).
    econstructor; [eapply grows_path; eauto|exact NEW].
Qed.

(** ** Paths *)
Lemma at_path_kind : forall ps p b, tree ps -> at_path ps p b -> is_kind ps b KBoundary.
Proof. intros ps p b T H. destruct H; [apply tree_root; auto; lia|]. eexists _, _; eauto. Qed.

Lemma at_path_inv : forall ps q b, at_path ps q b -> (q = [] /\ b = 0) \/ exists p a s, q = p ++ [s] /\ at_path ps p a /\ node_is ps b KBoundary (Some a) s.
Proof. intros ps q b H. destruct H; eauto 10. Qed.

Lemma root_none : forall ps k p s, tree ps -> ~ node_is ps 0 k (Some p) s.
Proof.
  intros ps k p s T (n & E & _ & P & _). destruct (t_roots _ T) as [_ R]. destruct (R 0 n ltac:(lia) E). congruence.
Qed.

Lemma at_path_det : forall ps p b, tree ps -> at_path ps p b -> forall b', at_path ps p b' -> b = b'.
Proof.
  intros ps p b T H. induction H as [|p b c s H IH N]; intros b' H'; apply at_path_inv in H' as [[E ->]|(q & a & t & E & Q & M)].
  - reflexivity.
  - destruct q; discriminate.
  - destruct p; discriminate.
  - apply app_inj_tail in E as [<- <-]. apply IH in Q as <-. eapply (t_unique _ T c b' KBoundary); eauto. discriminate.
Qed.
Lemma at_path_inj : forall ps p b, tree ps -> at_path ps p b -> forall p', at_path ps p' b -> p = p'.
Proof.
  intros ps p b T H. induction H as [|p b c s H IH N]; intros p' H'; apply at_path_inv in H' as [[-> E]|(q & a & t & -> & Q & M)].
  - reflexivity.
  - exfalso. eapply root_none; eauto.
  - subst. exfalso. eapply root_none; eauto.
  - destruct (node_fun _ _ _ _ _ _ _ _ N M) as (_ & E & ->). injection E as <-. apply IH in Q as <-. reflexivity.
Qed.

(** Extending without new boundaries keeps paths. *)
Lemma at_path_same : forall ps ps' p b, tree ps -> tree ps' -> ext ps ps' -> (forall i, length ps <= i -> ~ is_kind ps' i KBoundary) ->
  (at_path ps' p b <-> at_path ps p b).
Proof.
  intros ps ps' p b T T' (L & G & _) NB. split; [|apply grows_path; auto]. intros H. induction H; [constructor|].
  econstructor; eauto. destruct (le_lt_dec (length ps) c) as [X|X]; [|eapply grows_back; eauto]. exfalso. eapply NB; eauto. eexists _, _; eauto.
Qed.

(** Ids below the old length. *)
Lemma at_path_old : forall ps ps' p b, tree ps -> tree ps' -> ext ps ps' -> b < length ps -> at_path ps' p b -> at_path ps p b.
Proof.
  intros ps ps' p b T T' (L & G & _) HL H. induction H; [constructor|]. assert (X := tree_parent _ _ _ _ _ T' H0).
  econstructor; [apply IHat_path; lia|]. eapply grows_back; eauto.
Qed.

Lemma valid_name : forall s, (good_name s /\ is_valid_part_name s = Ok tt) \/ (~ good_name s /\ exists e, is_valid_part_name s = Err e /\ 1 <= e <= 3).
Proof.
  assert (LA : forall c, ascii_alpha c = true <-> letter c).
  { intros c. unfold ascii_alpha, letter. rewrite orb_true_iff, !andb_true_iff, !N.leb_le. tauto. }
  assert (LD : forall c, ascii_digit c = true <-> digit c).
  { intros c. unfold ascii_digit, digit. rewrite andb_true_iff, !N.leb_le. tauto. }
  intros [|f cs]; cbn.
  - right. split; [intros (f & cs & [=] & _)|]. exists 1. auto.
  - destruct ((f =? 95)%N || ascii_alpha f) eqn:EF.
    + apply orb_true_iff in EF. rewrite N.eqb_eq, LA in EF.
      destruct (forallb _ cs) eqn:EC.
      * left. split; auto. exists f, cs. split; auto. split; auto. intros c Hc. rewrite forallb_forall in EC. specialize (EC c Hc).
        rewrite !orb_true_iff, !N.eqb_eq, LA, LD in EC. tauto.
      * right. split; [|exists 2; auto]. intros (f' & cs' & E & _ & H). injection E as -> ->.
        apply not_true_iff_false in EC. apply EC, forallb_forall. intros c Hc. rewrite !orb_true_iff, !N.eqb_eq, LA, LD.
        specialize (H c Hc). tauto.
    + right. split; [|exists 3; auto]. intros (f' & cs' & E & H & _). injection E as -> ->.
      apply not_true_iff_false in EF. apply EF. rewrite orb_true_iff, N.eqb_eq, LA. auto.
Qed.

Lemma find_child : forall ps b cs k s g, (forall i, In i cs <-> child_of ps i b) ->
  (forall n, g n = true <-> kind_of n = k /\ pn_name n = s) ->
  match find (fun n => match nth_error ps n with Some nd => g nd | None => false end) cs with
  | Some c => node_is ps c k (Some b) s
  | None => forall c, ~ node_is ps c k (Some b) s
  end.
Proof.
  intros ps b cs k s g I HG. destruct (find _ cs) as [c|] eqn:F.
  - apply find_some in F as [Hc F]. apply I in Hc as (k' & t & n & E & K & P & N). rewrite E in F. apply HG in F as [F1 F2]. exists n. auto.
  - intros c (n & E & K & P & N). assert (Hc : In c cs) by (apply I; exists k, s, n; auto).
    apply (find_none _ _ F) in Hc. rewrite E in Hc. assert (g n = true) by (apply HG; auto). congruence.
Qed.

Lemma eq_boundary_spec : forall s n, eq_boundary s n = true <-> kind_of n = KBoundary /\ pn_name n = s.
Proof. intros s n. unfold eq_boundary. rewrite andb_true_iff, is_boundary_kind, str_eqb_eq. intuition. Qed.
Lemma eq_type_spec : forall s n, eq_type s n = true <-> kind_of n = KType /\ pn_name n = s.
Proof. intros s n. unfold eq_type. rewrite andb_true_iff, is_type_kind, str_eqb_eq. intuition. Qed.

(** One component. *)
Lemma boundary_step_spec : forall ps a p q, tree ps -> at_path ps q a ->
  (good_name p /\ exists c ps', boundary_step (a, ps) p = Ok (c, ps') /\ tree ps' /\ ext ps ps' /\ at_path ps' (q ++ [p]) c /\
     (forall i, length ps <= i -> i < length ps' -> is_kind ps' i KBoundary) /\
     (forall r, (exists b, at_path ps' r b) <-> (exists b, at_path ps r b) \/ r = q ++ [p])) \/
  (~ good_name p /\ exists e, boundary_step (a, ps) p = Err e /\ 1 <= e <= 3).
Proof.
  intros ps a p q T HA. assert (HB := at_path_kind _ _ _ T HA). unfold boundary_step.
  destruct (child_search ps a (eq_boundary p) T HB) as (cs & -> & FR & I). cbn [rbind]. rewrite FR. cbn [rbind].
  assert (FC := find_child ps a cs KBoundary p (eq_boundary p) I (eq_boundary_spec p)).
  destruct (find _ cs) as [c|].
  - left. split; [eapply (t_names _ T); eauto|]. exists c, ps. split; auto. split; auto. split; [apply ext_refl|]. split; [econstructor; eauto|].
    split; [intros; lia|]. intros r. split; auto. intros [H| ->]; auto. exists c. econstructor; eauto.
  - destruct (valid_name p) as [(HV & ->)|(HV & e & -> & HE)]; [|right; split; auto; exists e; auto]. left. split; auto. cbn [rbind].
    destruct (add_node_tree ps a p KBoundary T HB) as (ps' & E & AD & T'); auto.
    exists (length ps), ps'. cbn [item_of] in E. split; auto. split; auto. split; [eapply added_ext; eauto|].
    destruct AD as (AL & AN & AI & AE). assert (G : grows ps ps') by (intros i k' p' t H; apply AN; auto).
    assert (NEW : node_is ps' (length ps) KBoundary (Some a) p) by (apply AN; auto).
    split; [econstructor; [eapply grows_path; eauto|]; auto|]. split.
    + intros i L1 L2. assert (i = length ps) by lia. subst. eexists _, _; eauto.
    + intros r. split.
      * intros (b & H). apply at_path_inv in H as [[-> ->]|(p0 & a0 & s0 & -> & H0 & N0)]; [left; exists 0; constructor|].
        assert (OLD : forall p1 a1, at_path ps' p1 a1 -> a1 < length ps -> at_path ps p1 a1).
        { intros p1 a1 H1. induction H1; intros; [constructor|]. assert (X := tree_parent _ _ _ _ _ T' H). econstructor; [apply IHat_path; lia|].
          apply AN in H as [H|(-> & _)]; auto. lia. }
        apply AN in N0 as [N0|(-> & _ & N0 & ->)].
        -- left. exists b. assert (X := node_lt _ _ _ _ _ N0). assert (Y := tree_parent _ _ _ _ _ T N0). econstructor; [|exact N0]. apply OLD; auto. lia.
        -- right. injection N0 as ->. f_equal. assert (LA : a < length ps) by (destruct HB as (? & ? & HB); eapply node_lt; eauto).
           assert (X := OLD _ _ H0 LA). exact (at_path_inj _ _ _ T X _ HA).
      * intros [(b & H)| ->]; [exists b; eapply grows_path; eauto|]. exists (length ps). econstructor; [eapply grows_path; eauto|]. auto.
Qed.

Lemma path_spec : forall path ps a q, tree ps -> at_path ps q a ->
  (Forall good_name path /\ exists c ps', rfold boundary_step path (a, ps) = Ok (c, ps') /\ tree ps' /\ ext ps ps' /\ at_path ps' (q ++ path) c /\
     (forall i, length ps <= i -> i < length ps' -> is_kind ps' i KBoundary) /\
     (forall r, (exists b, at_path ps' r b) <-> (exists b, at_path ps r b) \/ exists u v, path = u ++ v /\ r = q ++ u)) \/
  (~ Forall good_name path /\ exists e, rfold boundary_step path (a, ps) = Err e /\ 1 <= e <= 3).
Proof.
  induction path as [|p path IH]; intros ps a q T HA.
  - left. split; [constructor|]. exists a, ps. cbn [rfold]. split; auto. split; auto. split; [apply ext_refl|]. rewrite app_nil_r. split; auto.
    split; [intros; lia|]. intros r. split; auto. intros [H|(u & v & E & ->)]; auto. symmetry in E. apply app_eq_nil in E as [-> ->]. rewrite app_nil_r. eauto.
  - cbn [rfold]. destruct (boundary_step_spec ps a p q T HA) as [(GP & c & ps1 & E1 & T1 & X1 & A1 & N1 & P1)|(GP & e & E1 & HE)].
    + rewrite E1. cbn [rbind]. destruct (IH ps1 c (q ++ [p]) T1 A1) as [(GS & d & ps2 & E2 & T2 & X2 & A2 & N2 & P2)|(GS & e & E2 & HE)].
      * left. split; [constructor; auto|]. exists d, ps2. rewrite E2. split; auto. split; auto. split; [eapply ext_trans; eauto|].
        rewrite <- app_assoc in A2. split; auto. split.
        -- intros i L1 L2. destruct (le_lt_dec (length ps1) i); auto. eapply grows_kind; [apply X2|]. auto.
        -- intros r. rewrite P2, P1. split.
           ++ intros [[H| ->]|(u & v & -> & ->)]; auto.
              ** right. exists [p], path. auto.
              ** right. exists (p :: u), v. rewrite <- app_assoc. auto.
           ++ intros [H|(u & v & E & ->)]; auto. destruct u as [|x u].
              ** left. left. rewrite app_nil_r. eauto.
              ** injection E as <- ->. right. exists u, v. rewrite <- app_assoc. auto.
      * right. split; [intros H; inversion H; auto|]. exists e. rewrite E2. auto.
    + right. split; [intros H; inversion H; auto|]. exists e. rewrite E1. auto.
Qed.

(** * Items of a file *)
Definition add_k (k : kind) := match k with KType => add_type | _ => add_impl end.

Lemma add_k_spec : forall k ps b s path, k <> KBoundary -> tree ps -> at_path ps path b ->
  ((k = KType -> forall j, ~ node_is ps j k (Some b) s) /\
    exists ps', add_k k ps b s = Ok (length ps, ps') /\ added ps ps' b k s /\ tree ps') \/
  (k = KType /\ (exists j, node_is ps j k (Some b) s) /\ add_k k ps b s = Err 4).
Proof.
  intros k ps b s path HK T HP. assert (HB := at_path_kind _ _ _ T HP). destruct k; [now contradiction HK| |].
  - cbn [add_k]. unfold add_type. destruct (child_search ps b (eq_type s) T HB) as (cs & -> & FR & I). cbn [rbind]. rewrite FR. cbn [rbind].
    assert (FC := find_child ps b cs KType s (eq_type s) I (eq_type_spec s)). destruct (find _ cs) as [c|].
    + right. split; auto. split; eauto.
    + left. split; auto. destruct (add_node_tree ps b s KType T HB) as (ps' & E & AD & T'); auto; [discriminate|]. exists ps'. auto.
  - left. split; [discriminate|]. destruct (add_node_tree ps b s KImpl T HB) as (ps' & E & AD & T'); try congruence. exists ps'. auto.
Qed.

Lemma added_no_boundary : forall ps ps' b k s, added ps ps' b k s -> k <> KBoundary -> forall i, length ps <= i -> ~ is_kind ps' i KBoundary.
Proof. intros ps ps' b k s (_ & AN & _) HK i L (p & t & H). apply AN in H as [H|(_ & H & _)]; [apply node_lt in H; lia|congruence]. Qed.

Lemma items_spec : forall k b names ns ps path, k <> KBoundary -> tree ps -> at_path ps path b ->
  ((k = KType -> NoDup names /\ forall s, In s names -> forall j, ~ node_is ps j k (Some b) s) /\
    exists ps', rfold (add_named (add_k k) b) names (ns, ps) = Ok (ns ++ seq (length ps) (length names), ps') /\ tree ps' /\ ext ps ps' /\
      length ps' = length ps + length names /\ Forall2 (fun i s => node_is ps' i k (Some b) s) (seq (length ps) (length names)) names) \/
  (k = KType /\ ~ (NoDup names /\ forall s, In s names -> forall j, ~ node_is ps j k (Some b) s) /\
    rfold (add_named (add_k k) b) names (ns, ps) = Err 4).
Proof.
  intros k b names. induction names as [|s names IH]; intros ns ps path HK T HP.
  - left. split; [intros _; split; [constructor|intros s []]|]. exists ps. cbn [rfold seq length]. rewrite app_nil_r. split; auto. split; auto.
    split; [apply ext_refl|]. split; auto.
  - cbn [rfold]. change (add_named (add_k k) b (ns, ps) s) with (let? r := add_k k ps b s in Ok (ns ++ [fst r], snd r)). destruct (add_k_spec k ps b s path HK T HP) as [(U & ps1 & E & AD & T1)|(-> & EX & E)].
    + assert (X1 : ext ps ps1) by (eapply added_ext; eauto). rewrite E. cbn [rbind fst snd].
      assert (HP1 : at_path ps1 path b) by (eapply grows_path; [apply X1|eauto]).
      assert (AN := proj1 (proj2 AD)). assert (AL := proj1 AD).
      destruct (IH (ns ++ [length ps]) ps1 path HK T1 HP1) as [(U2 & ps2 & E2 & T2 & X2 & L2 & F2)|(-> & NU & E2)].
      * left. split.
        { intros ->. destruct (U2 eq_refl) as [ND NX]. split.
          - constructor; auto. intros Hs. apply (NX s Hs (length ps)). apply AN. auto.
          - intros t [<-|Ht] j Hj; [eapply U; eauto|]. apply (NX t Ht j). apply AN. auto. }
        exists ps2. rewrite E2, AL, <- app_assoc. cbn [app length seq]. split; auto. split; auto. split; [eapply ext_trans; eauto|]. split; [lia|].
        constructor; [apply X2, AN; auto|]. rewrite AL in F2. auto.
      * right. split; auto. split; auto. intros [ND NX]. apply NU. inversion ND; subst. split; auto. intros t Ht j Hj.
        apply AN in Hj as [Hj|(-> & _ & _ & ->)]; [eapply NX; [right|]; eauto|contradiction].
    + right. split; auto. rewrite E. split; auto. intros [_ NX]. destruct EX as (j & EX). eapply NX; eauto. now left.
Qed.

Lemma items_kinds : forall k (b n m : nat) ps names, Forall2 (fun i s => node_is ps i k (Some b) s) (seq n m) names -> k <> KBoundary ->
  forall i, n <= i < n + m -> ~ is_kind ps i KBoundary.
Proof.
  intros k b n m ps names H HK i Hi (p & s & K). assert (Hs : In i (seq n m)) by (apply in_seq; lia).
  clear -H HK K Hs. induction H; [destruct Hs|]. destruct Hs as [->|Hs]; auto. destruct (node_fun _ _ _ _ _ _ _ _ H K). congruence.
Qed.

(** ** One file *)
Definition types_ok (ps : parts) (b : nat) (f : pfile) : Prop :=
  NoDup (f_types f) /\ forall s, In s (f_types f) -> forall j, ~ node_is ps j KType (Some b) s.
Definition item_names (f : pfile) : list (kind * str) := map (pair KType) (f_types f) ++ map (pair KImpl) (f_impls f).
Definition has_items (ps : parts) (b : nat) (ns : list nat) (f : pfile) : Prop :=
  Forall2 (fun i ks => node_is ps i (fst ks) (Some b) (snd ks)) ns (item_names f).

Lemma split_directives_spec : forall f, split_directives (f_directives f) = (file_imports f, file_exports f).
Proof.
  intros f. unfold split_directives, file_imports, file_exports.
  assert (G : forall ds (i : list import) (e : list str), fold_left (fun (ie : list import * list str) x =>
      let (i, e) := ie in
      match x with DImport l => (i ++ l, e) | DExport l => (i, e ++ l) | DFailFast | DNoParallelise => (i, e) end) ds (i, e) =
      (i ++ flat_map (fun d => match d with DImport l => l | _ => [] end) ds, e ++ flat_map (fun d => match d with DExport l => l | _ => [] end) ds)).
  { induction ds as [|d ds IH]; intros i e; cbn; [now rewrite !app_nil_r|]. destruct d; rewrite IH; cbn; now rewrite ?app_assoc. }
  apply G.
Qed.

Lemma Forall2_map_r : forall A B C (P : A -> C -> Prop) (h : B -> C) l m, Forall2 (fun a b => P a (h b)) l m -> Forall2 P l (map h m).
Proof. intros A B C P h l m H. induction H; constructor; auto. Qed.
Lemma Forall2_mono : forall A B (P Q : A -> B -> Prop) l m, (forall a b, P a b -> Q a b) -> Forall2 P l m -> Forall2 Q l m.
Proof. intros A B P Q l m H F. induction F; constructor; auto. Qed.

Lemma file_step_spec : forall s f b path, tree (e_parts s) -> at_path (e_parts s) path b ->
  (types_ok (e_parts s) b f /\ exists ps' ns,
     file_step b s f = Ok (Ext ps' (match file_exports f with [] => e_exports s | x => extend_entry b x (e_exports s) end)
                               (match ns, file_imports f with [], _ | _, [] => e_imports s | _, im => e_imports s ++ [(b, im, ns)] end)) /\
     tree ps' /\ ext (e_parts s) ps' /\ ns = seq (length (e_parts s)) (length ns) /\ length ps' = length (e_parts s) + length ns /\ has_items ps' b ns f) \/
  (~ types_ok (e_parts s) b f /\ file_step b s f = Err 4).
Proof.
  intros s f b path T HP. unfold file_step. rewrite split_directives_spec.
  destruct (items_spec KType b (f_types f) [] (e_parts s) path ltac:(discriminate) T HP) as [(U & ps1 & E1 & T1 & X1 & L1 & F1)|(_ & NU & E1)].
  2:{ right. split; auto. cbn [add_k] in E1. now rewrite E1. }
  cbn [add_k] in E1. rewrite E1. cbn [rbind app]. left. split; [now apply U|].
  assert (HP1 : at_path ps1 path b) by (eapply grows_path; [apply X1|eauto]).
  destruct (items_spec KImpl b (f_impls f) (seq (length (e_parts s)) (length (f_types f))) ps1 path ltac:(discriminate) T1 HP1)
    as [(_ & ps2 & E2 & T2 & X2 & L2 & F2)|(H & _)]; [|discriminate].
  cbn [add_k] in E2. rewrite E2. cbn [rbind].
  exists ps2, (seq (length (e_parts s)) (length (f_types f) + length (f_impls f))).
  rewrite seq_length. rewrite seq_app, <- L1.
  split; [f_equal; f_equal; destruct (seq (length (e_parts s)) (length (f_types f)) ++ seq (length ps1) (length (f_impls f))), (file_imports f), (file_exports f); reflexivity|].
  split; auto. split; [eapply ext_trans; eauto|]. split; auto. split; [lia|].
  unfold has_items, item_names. apply Forall2_app.
  - apply (Forall2_map_r _ _ _ (fun i ks => node_is ps2 i (fst ks) (Some b) (snd ks)) (pair KType)). cbn.
    eapply Forall2_mono; [|exact F1]. intros i t H. apply X2. exact H.
  - apply (Forall2_map_r _ _ _ (fun i ks => node_is ps2 i (fst ks) (Some b) (snd ks)) (pair KImpl)). exact F2.
Qed.
