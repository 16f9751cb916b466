From Coq Require Import String List NArith Arith Lia Bool Sorted Permutation.
From Verif Require Import Model.Base Model.TableCrate Model.Parts Spec.SortSpec Spec.PartsSpec Proofs.PartSetProofs Proofs.PartsTreeProofs Proofs.PartsBuildProofs.
Import ListNotations.

(** * Changing exports and imports only *)
Definition same_tree (ps ps' : parts) : Prop :=
  length ps' = length ps /\ forall i k p s, node_is ps' i k p s <-> node_is ps i k p s.
Lemma same_refl : forall ps, same_tree ps ps. Proof. intros. split; [auto|tauto]. Qed.
Lemma same_trans : forall a b c, same_tree a b -> same_tree b c -> same_tree a c.
Proof. intros a b c [L1 N1] [L2 N2]. split; [congruence|]. intros. rewrite N2. apply N1. Qed.
Lemma same_grows : forall a b, same_tree a b -> grows a b. Proof. intros a b [_ N] i k p s. apply N. Qed.
Lemma same_sym : forall a b, same_tree a b -> same_tree b a. Proof. intros a b [L N]. split; [auto|]. intros. now rewrite N. Qed.
Lemma same_kind : forall a b i k, same_tree a b -> (is_kind b i k <-> is_kind a i k).
Proof. intros a b i k [_ N]. split; intros (p & s & H); exists p, s; now apply N. Qed.
Lemma same_child : forall a b i j, same_tree a b -> (child_of b i j <-> child_of a i j).
Proof. intros a b i j [_ N]. split; intros (k & s & H); exists k, s; now apply N. Qed.
Lemma same_path : forall a b p i, same_tree a b -> (at_path b p i <-> at_path a p i).
Proof. intros a b p i S. split; apply grows_path; apply same_grows; auto. now apply same_sym. Qed.
Lemma same_leads : forall a b i p j, same_tree a b -> leads a i p j -> leads b i p j.
Proof. intros a b i p j [_ N] H. induction H; [constructor|eapply leads_up; [apply N|]; eauto|eapply leads_down; [eauto|apply N|]; eauto]. Qed.

Definition keeps (f : pnode -> pnode) : Prop :=
  forall n, kind_of (f n) = kind_of n /\ pn_parent (f n) = pn_parent n /\ pn_name (f n) = pn_name n /\
    forall e cs, pn_item (f n) = PBoundary e cs -> exists e', pn_item n = PBoundary e' cs.
Lemma keeps_exports : forall xs, keeps (set_exports xs).
Proof. intros xs n. unfold set_exports, kind_of. destruct (pn_item n) eqn:I; cbn; rewrite ?I; split; auto; split; auto; split; auto; intros e cs [=]; subst; eauto. Qed.
Lemma keeps_imports : forall xs, keeps (set_imports xs).
Proof. intros xs n. unfold set_imports, kind_of. destruct (pn_item n) eqn:I; cbn; rewrite ?I; split; auto; split; auto; split; auto; intros ? ? [=]; subst; eauto. Qed.

Lemma upd_same : forall f ps i, keeps f -> same_tree ps (upd i f ps).
Proof.
  intros f ps i K. split; [apply upd_length|]. intros j k p s. unfold node_is. rewrite nth_upd. destruct (i =? j); [|tauto].
  destruct (nth_error ps j) as [n|]; cbn [option_map]; [|tauto]. destruct (K n) as (K1 & K2 & K3 & _). split.
  - intros (m & [= <-] & A & B & C). exists n. rewrite <- K1, <- K2, <- K3. auto.
  - intros (m & [= <-] & A & B & C). exists (f n). rewrite K1, K2, K3. auto.
Qed.

Lemma upd_tree : forall f ps i, keeps f -> tree ps ->
  (forall b l x, exports_of (upd i f ps) b l -> In x l -> child_of ps x b /\ ~ is_kind ps x KBoundary) ->
  (forall j l x, imports_of (upd i f ps) j l -> In x l -> x < length ps) -> tree (upd i f ps).
Proof.
  intros f ps i K T HE HI. assert (S := upd_same f ps i K). destruct S as [L N].
  assert (S : same_tree ps (upd i f ps)) by (split; auto). constructor.
  - split; [rewrite L; apply T|]. intros j n Hj E. assert (X : node_is (upd i f ps) j (kind_of n) (pn_parent n) (pn_name n)) by (exists n; auto).
    apply N in X as (m & Em & M1 & M2 & _). destruct (t_roots _ T) as [_ R]. destruct (R j m Hj Em). split; congruence.
  - intros j n Hj E. assert (X : node_is (upd i f ps) j (kind_of n) (pn_parent n) (pn_name n)) by (exists n; auto).
    apply N in X as (m & Em & M1 & M2 & _). destruct (t_parent _ T j m Hj Em) as (p & P1 & P2 & P3). exists p. split; [congruence|]. split; auto. now apply (same_kind ps).
  - intros b n e cs E I. rewrite nth_upd in E. assert (G : exists m e', nth_error ps b = Some m /\ pn_item m = PBoundary e' cs).
    { destruct (i =? b); [|eauto]. destruct (nth_error ps b) as [m|]; cbn in E; [|discriminate]. injection E as <-. destruct (K m) as (_ & _ & _ & K4).
      destruct (K4 e cs I) as (e' & I'). eauto. }
    destruct G as (m & e' & Em & Im). destruct (t_children _ T b m e' cs Em Im) as [C1 C2]. split; auto. intros j. rewrite C2. symmetry. now apply same_child.
  - intros j j' k p s HK H1 H2. apply N in H1, H2. eapply (t_unique _ T); eauto.
  - intros j p s H. apply N in H. eapply (t_names _ T); eauto.
  - intros b l x E X. rewrite (same_child ps), (same_kind ps) by auto. eauto.
  - intros j l x E X. rewrite L. eauto.
Qed.

Lemma exports_upd_exports : forall ps b xs b' l, is_kind ps b KBoundary ->
  (exports_of (upd b (set_exports xs) ps) b' l <-> if b =? b' then l = xs else exports_of ps b' l).
Proof.
  intros ps b xs b' l HB. unfold exports_of. rewrite nth_upd. destruct (Nat.eqb_spec b b') as [->|N]; [|tauto].
  destruct (boundary_item _ _ HB) as (n & e & cs & E & I). rewrite E. cbn [option_map]. unfold set_exports. rewrite I. split.
  - intros (m & cs' & [= <-] & M). cbn in M. congruence.
  - intros ->. eexists _, cs. split; [reflexivity|]. reflexivity.
Qed.
Lemma imports_upd_exports : forall ps b xs j l, imports_of (upd b (set_exports xs) ps) j l <-> imports_of ps j l.
Proof.
  intros ps b xs j l. unfold imports_of. rewrite nth_upd. destruct (b =? j); [|tauto]. destruct (nth_error ps j) as [n|]; cbn; [|tauto].
  unfold set_exports. destruct (pn_item n) eqn:I; split; intros (m & [= <-] & M); eexists; (split; [reflexivity|]); cbn in *; rewrite ?I in *; auto; destruct M; discriminate.
Qed.
Lemma exports_upd_imports : forall ps b xs j l, exports_of (upd b (set_imports xs) ps) j l <-> exports_of ps j l.
Proof.
  intros ps b xs j l. unfold exports_of. rewrite nth_upd. destruct (b =? j); [|tauto]. destruct (nth_error ps j) as [n|]; cbn; [|tauto].
  unfold set_imports. destruct (pn_item n) eqn:I; split; intros (m & cs & [= <-] & M); eexists _, cs; (split; [reflexivity|]); cbn in *; rewrite ?I in *; auto; discriminate.
Qed.
Lemma imports_upd_imports : forall ps b xs j l k, is_kind ps b k -> k <> KBoundary ->
  (imports_of (upd b (set_imports xs) ps) j l <-> if b =? j then l = xs else imports_of ps j l).
Proof.
  intros ps b xs j l k (p & s & n & E & K & _) HK. unfold imports_of. rewrite nth_upd. destruct (Nat.eqb_spec b j) as [->|N]; [|tauto].
  rewrite E. cbn [option_map]. unfold set_imports. unfold kind_of in K. destruct (pn_item n) eqn:I; [congruence| |]; split.
  all: try (intros (m & [= <-] & [M|M]); cbn in M; congruence).
  all: intros ->; eexists; (split; [reflexivity|]); cbn; auto.
Qed.

Section Use.
  Variable so : sorter.
  Variable pp : forall A : Type, (A -> bool) -> list A -> nat.
  Variable glob : str -> option (str -> bool).
  Hypothesis HSO : sort_contract so.
  Hypothesis HPP : partition_contract pp.

  (** ** Globs *)
  Lemma glob_find_spec : forall ps b pat, tree ps -> is_kind ps b KBoundary ->
    (exists m l, glob pat = Some m /\ glob_find glob ps b pat = Ok l /\ forall i, In i l <-> exists k s, node_is ps i k (Some b) s /\ m s = true) \/
    (glob pat = None /\ glob_find glob ps b pat = Err 5).
  Proof.
    intros ps b pat T HB. unfold glob_find. destruct (glob pat) as [m|]; [|right; auto]. left. exists m.
    destruct (tree_children ps b T HB) as (cs & -> & I). cbn [rbind].
    exists (filter (fun n => match nth_error ps n with Some nd => m (pn_name nd) | None => false end) cs). split; auto. split.
    - apply rfilter_ok. intros i Hi. apply I, child_lt, nth_some in Hi as (n & E). unfold pget. now rewrite E.
    - intros i. rewrite filter_In, I. split.
      + intros [(k & s & n & E & K & P & N) M]. rewrite E in M. exists k, s. subst. split; auto. exists n. auto.
      + intros (k & s & (n & E & K & P & N) & M). rewrite E, N. split; auto. exists k, s, n. auto.
  Qed.

  (** ** Exports *)
  Lemma export_step_spec : forall ps b xs pat, tree ps -> is_kind ps b KBoundary ->
    (exists keep, export_step glob ps b xs pat = Ok (xs ++ keep) /\ (forall i, In i keep <-> exportable glob ps b pat i) /\ exists i, exportable glob ps b pat i) \/
    (exists e, export_step glob ps b xs pat = Err e /\ 5 <= e <= 6 /\ forall i, ~ exportable glob ps b pat i).
  Proof.
    intros ps b xs pat T HB. unfold export_step. destruct (glob_find_spec ps b pat T HB) as [(m & l & G & E & I)|(G & E)]; rewrite E; cbn [rbind].
    - rewrite (rfilter_ok _ _ (fun n => match nth_error ps n with Some nd => negb (is_boundary nd) | None => false end)).
      2:{ intros i Hi. apply I in Hi as (k & s & (n & En & _) & _). unfold pget. now rewrite En. }
      cbn [rbind]. set (keep := filter _ l).
      assert (KP : forall i, In i keep <-> exportable glob ps b pat i).
      { intros i. unfold keep. rewrite filter_In, I. split.
        - intros [(k & s & H & M) B]. exists k, s. split; auto. destruct H as (n & En & K & P & N). rewrite En in B. split.
          + intros ->. apply is_boundary_kind in K. now rewrite K in B.
          + exists m. auto.
        - intros (k & s & H & HK & (m' & G' & M)). rewrite G in G'. injection G' as <-. split; [eauto|]. destruct H as (n & En & K & P & N).
          rewrite En. destruct (is_boundary n) eqn:B; auto. apply is_boundary_kind in B. congruence. }
      destruct keep as [|x keep'].
      + right. exists 6. split; auto. split; [lia|]. intros i Hi. apply KP in Hi. destruct Hi.
      + left. exists (x :: keep'). split; auto. split; auto. exists x. apply KP. now left.
    - right. exists 5. split; auto. split; [lia|]. intros i (k & s & _ & _ & (m & G' & _)). congruence.
  Qed.

  Lemma exports_fold : forall ps b pats xs, tree ps -> is_kind ps b KBoundary ->
    ((forall pat, In pat pats -> exists i, exportable glob ps b pat i) /\
      exists ys, rfold (export_step glob ps b) pats xs = Ok ys /\ forall i, In i ys <-> In i xs \/ exists pat, In pat pats /\ exportable glob ps b pat i) \/
    (~ (forall pat, In pat pats -> exists i, exportable glob ps b pat i) /\ exists e, rfold (export_step glob ps b) pats xs = Err e /\ 5 <= e <= 6).
  Proof.
    intros ps b pats. induction pats as [|pat pats IH]; intros xs T HB.
    - left. split; [intros pat []|]. exists xs. split; auto. intros i. split; auto. intros [H|(pat & [] & _)]; auto.
    - cbn [rfold]. destruct (export_step_spec ps b xs pat T HB) as [(keep & E & I & NE)|(e & E & HE & NE)]; rewrite E; cbn [rbind].
      + destruct (IH (xs ++ keep) T HB) as [(A & ys & E2 & I2)|(A & e & E2 & HE)].
        * left. split; [intros q [<-|Q]; auto|]. exists ys. split; auto. intros i. rewrite I2, in_app_iff, I. split.
          -- intros [[H|H]|(q & Q & H)]; auto; right; [exists pat; split; auto; now left|exists q; split; auto; now right].
          -- intros [H|(q & [<-|Q] & H)]; auto. right. eauto.
        * right. split; [|eauto]. intros H. apply A. intros q Q. apply H. now right.
      + right. split; [|eauto]. intros H. destruct (H pat) as (i & Hi); [now left|]. eapply NE; eauto.
  Qed.

  (** Only exports change, and they grow by what [news] says. *)
  Definition exports_grow (ps ps' : parts) (news : nat -> nat -> Prop) : Prop :=
    tree ps' /\ same_tree ps ps' /\ (forall j l, imports_of ps' j l <-> imports_of ps j l) /\
    (forall b i, exported ps' b i <-> exported ps b i \/ news b i).

  Lemma exportable_same : forall a b c pat i, same_tree a b -> (exportable glob b c pat i <-> exportable glob a c pat i).
  Proof. intros a b c pat i [_ N]. split; intros (k & s & H & X); exists k, s; (split; [now apply N|exact X]). Qed.

  Lemma add_exports_spec : forall ps b pats, tree ps -> is_kind ps b KBoundary ->
    ((forall pat, In pat pats -> exists i, exportable glob ps b pat i) /\
      exists ps', add_exports so glob ps b pats = Ok ps' /\
        exports_grow ps ps' (fun c i => c = b /\ exists pat, In pat pats /\ exportable glob ps b pat i)) \/
    (~ (forall pat, In pat pats -> exists i, exportable glob ps b pat i) /\ exists e, add_exports so glob ps b pats = Err e /\ 5 <= e <= 6).
  Proof.
    intros ps b pats T HB. unfold add_exports. destruct pats as [|p0 pats0].
    { left. split; [intros pat []|]. exists ps. split; auto. split; auto. split; [apply same_refl|]. split; [tauto|].
      intros c i. split; auto. intros [H|(_ & pat & [] & _)]; auto. }
    set (pats := p0 :: pats0) in *. destruct (boundary_item _ _ HB) as (n & old & cs & En & In'). unfold pget. rewrite En. cbn [rbind]. rewrite In'.
    assert (EO : exports_of ps b old) by (exists n, cs; auto).
    destruct (exports_fold ps b pats old T HB) as [(A & ys & E & I)|(A & e & E & HE)]; rewrite E; cbn [rbind]; [|right; eauto].
    left. split; auto.
    assert (CH : forall i, In i ys -> child_of ps i b /\ ~ is_kind ps i KBoundary).
    { intros i Hi. apply I in Hi as [Hi|(pat & Hp & k & s & Hi & HK & _)]; [eapply (t_exports _ T); eauto|]. split; [exists k, s; auto|].
      intros (p & t & K). destruct (node_fun _ _ _ _ _ _ _ _ Hi K). congruence. }
    destruct (set_members so ps ys HSO) as (zs & EZ & NZ & IZ).
    { intros i Hi. eapply child_lt. apply CH; eauto. }
    rewrite EZ. cbn [rbind]. exists (upd b (set_exports zs) ps). split; auto.
    split; [|split; [apply upd_same, keeps_exports|split; [intros; apply imports_upd_exports|]]].
    - apply upd_tree; auto; [apply keeps_exports| |].
      + intros c l x H Hx. apply exports_upd_exports in H; auto. destruct (Nat.eqb_spec b c) as [<-|N].
        * subst. apply IZ in Hx. auto.
        * eapply (t_exports _ T); eauto.
      + intros j l x H Hx. apply (proj1 (imports_upd_exports _ _ _ _ _)) in H. exact (t_imports _ T j l x H Hx).
    - intros c i. unfold exported. split.
      + intros (l & H & Hi). apply exports_upd_exports in H; auto. destruct (Nat.eqb_spec b c) as [<-|N]; [|left; eauto]. subst.
        apply IZ, I in Hi as [Hi|Hi]; [left; eauto|right; auto].
      + intros [(l & H & Hi)|(-> & pat & Hp & Hi)].
        * destruct (Nat.eqb_spec b c) as [<-|N].
          -- exists zs. split; [apply exports_upd_exports; auto; now rewrite Nat.eqb_refl|]. rewrite (exports_fun _ _ _ _ H EO) in Hi. apply IZ, I; auto.
          -- exists l. split; auto. apply exports_upd_exports; auto. apply Nat.eqb_neq in N. now rewrite N.
        * exists zs. split; [apply exports_upd_exports; auto; now rewrite Nat.eqb_refl|]. apply IZ, I. right. eauto.
  Qed.

  Lemma exports_phase : forall es ps, tree ps -> (forall b pats, In (b, pats) es -> is_kind ps b KBoundary) ->
    ((forall b pats pat, In (b, pats) es -> In pat pats -> exists i, exportable glob ps b pat i) /\
      exists ps', rfold (fun ps be => add_exports so glob ps (fst be) (snd be)) es ps = Ok ps' /\
        exports_grow ps ps' (fun b i => exists pats pat, In (b, pats) es /\ In pat pats /\ exportable glob ps b pat i)) \/
    (~ (forall b pats pat, In (b, pats) es -> In pat pats -> exists i, exportable glob ps b pat i) /\
      exists e, rfold (fun ps be => add_exports so glob ps (fst be) (snd be)) es ps = Err e /\ 5 <= e <= 6).
  Proof.
    induction es as [|[b pats] es IH]; intros ps T HB.
    - left. split; [intros b pats pat []|]. exists ps. split; auto. split; auto. split; [apply same_refl|]. split; [tauto|].
      intros b i. split; auto. intros [H|(pats & pat & [] & _)]; auto.
    - cbn [rfold fst snd]. destruct (add_exports_spec ps b pats T) as [(A & ps1 & E1 & T1 & S1 & I1 & X1)|(A & e & E1 & HE)]; [apply (HB b pats); now left| |]; rewrite E1; cbn [rbind].
      + destruct (IH ps1 T1) as [(A2 & ps2 & E2 & T2 & S2 & I2 & X2)|(A2 & e & E2 & HE)].
        { intros c q H. rewrite (same_kind ps) by auto. apply (HB c q). now right. }
        * left. split.
          { intros c q pat [H|H] Hp; [injection H as <- <-; auto|]. destruct (A2 c q pat H Hp) as (i & Hi). exists i. now apply (exportable_same ps ps1). }
          exists ps2. split; auto. split; auto. split; [eapply same_trans; eauto|]. split; [intros j l; rewrite I2; auto|].
          intros c i. rewrite X2, X1. split.
          -- intros [[H|(-> & pat & Hp & H)]|(q & pat & Hq & Hp & H)]; auto; right.
             ++ exists pats, pat. split; [now left|]. auto.
             ++ exists q, pat. split; [now right|]. split; auto. now apply (exportable_same ps ps1).
          -- intros [H|(q & pat & [Hq|Hq] & Hp & H)]; auto.
             ++ injection Hq as -> ->. left. right. split; auto. eauto.
             ++ right. exists q, pat. split; auto. split; auto. now apply (exportable_same ps ps1).
        * right. split; [|eauto]. intros H. apply A2. intros c q pat Hq Hp. destruct (H c q pat (or_intror Hq) Hp) as (i & Hi). exists i.
          now apply (exportable_same ps ps1).
      + right. split; [|eauto]. intros H. apply A. intros pat Hp. eapply H; [now left|auto].
  Qed.

  (** ** Imports *)
  Lemma boundary_up_spec : forall ps a x, tree ps -> is_kind ps a KBoundary ->
    (exists c, boundary_up ps a x = Ok c /\ is_kind ps c KBoundary /\ forall path d, leads ps a (x :: path) d <-> leads ps c path d) \/
    (exists e, boundary_up ps a x = Err e /\ 7 <= e <= 8 /\ forall path d, ~ leads ps a (x :: path) d).
  Proof.
    intros ps a x T HB. destruct (boundary_item _ _ HB) as (n & e0 & cs0 & En & In'). assert (PG : pget ps a = Ok n) by (unfold pget; now rewrite En).
    unfold boundary_up. rewrite PG. cbn [rbind].
    assert (B : is_boundary n = true) by (unfold is_boundary; now rewrite In'). rewrite B. cbn [negb].
    destruct (str_eqb x (lit "..")) eqn:EX.
    - apply str_eqb_eq in EX. subst x. destruct (pn_parent n) as [p|] eqn:EP.
      + left. assert (NA : node_is ps a KBoundary (Some p) (pn_name n)) by (exists n; split; auto; split; auto; now apply is_boundary_kind).
        destruct (tree_parent _ _ _ _ _ T NA) as [_ KP]. exists p. split; auto. split; auto. intros path d. split; [|intros H; eapply leads_up; eauto].
        intros H. inversion H; subst; [|exfalso; match goal with HX : _ <> lit ".." |- _ => apply HX; reflexivity end]. destruct (node_fun _ _ _ _ _ _ _ _ NA H1) as (_ & Q & _). injection Q as ->. auto.
      + right. exists 7. split; auto. split; [lia|]. intros path d H. inversion H; subst; [|exfalso; match goal with HX : _ <> lit ".." |- _ => apply HX; reflexivity end].
        destruct H1 as (n' & E' & _ & P' & _). congruence.
    - apply str_eqb_neq in EX. destruct (child_search ps a (eq_boundary x) T HB) as (cs & -> & FR & I). cbn [rbind]. rewrite FR. cbn [rbind].
      assert (FC := find_child ps a cs KBoundary x (eq_boundary x) I (eq_boundary_spec x)). destruct (find _ cs) as [c|].
      + left. exists c. split; auto. split; [eexists _, _; eauto|]. intros path d. split; [|intros H; eapply leads_down; eauto].
        intros H. inversion H; subst; [exfalso; match goal with HX : _ <> lit ".." |- _ => apply HX; reflexivity end|]. assert (c = d0) by (eapply (t_unique _ T c d0 KBoundary); eauto; discriminate). subst. auto.
      + right. exists 8. split; auto. split; [lia|]. intros path d H. inversion H; subst; [exfalso; match goal with HX : _ <> lit ".." |- _ => apply HX; reflexivity end|]. eapply FC; eauto.
  Qed.

  Lemma find_boundary_spec : forall ps path a, tree ps -> is_kind ps a KBoundary ->
    (exists c, find_boundary ps a path = Ok c /\ is_kind ps c KBoundary /\ forall d, leads ps a path d <-> d = c) \/
    (exists e, find_boundary ps a path = Err e /\ 7 <= e <= 8 /\ forall d, ~ leads ps a path d).
  Proof.
    intros ps path. induction path as [|x path IH]; intros a T HB.
    - left. exists a. split; auto. split; auto. intros d. split; [intros H; now inversion H|intros ->; constructor].
    - unfold find_boundary. cbn [rfold]. destruct (boundary_up_spec ps a x T HB) as [(c & E & K & U)|(e & E & HE & U)]; rewrite E; cbn [rbind].
      + destruct (IH c T K) as [(d & E2 & K2 & U2)|(e & E2 & HE & U2)].
        * left. exists d. split; auto. split; auto. intros d'. rewrite U. apply U2.
        * right. exists e. split; auto. split; auto. intros d'. rewrite U. apply U2.
      + right. exists e. auto.
  Qed.

  Lemma base_kind : forall ps this im, tree ps -> is_kind ps this KBoundary -> is_kind ps (import_base this im) KBoundary.
  Proof. intros ps this im T H. unfold import_base. destruct (im_prefix im); auto; apply tree_root; auto; lia. Qed.

  Lemma contains_id_in : forall l i, contains_id l i = true <-> In i l.
  Proof. intros l i. unfold contains_id. rewrite existsb_exists. split; [intros (x & H & E); apply Nat.eqb_eq in E; now subst|]. intros H. exists i. split; auto. apply Nat.eqb_refl. Qed.

  Lemma resolve_import_spec : forall ps this im, tree ps -> is_kind ps this KBoundary ->
    (exists l, resolve_import glob ps this im = Ok l /\ forall x, In x l <-> imported glob ps this im x) \/
    (exists e, resolve_import glob ps this im = Err e /\ 5 <= e <= 8 /\ forall x, ~ imported glob ps this im x).
  Proof.
    intros ps this im T HB. assert (KB := base_kind ps this im T HB). unfold resolve_import.
    change (match im_prefix im with PxNone => this | PxRoot => root_id | PxPlugins => plugins_id end) with (import_base this im).
    destruct (find_boundary_spec ps (im_path im) _ T KB) as [(c & E & K & U)|(e & E & HE & U)]; rewrite E; cbn [rbind].
    2:{ right. exists e. split; auto. split; [lia|]. intros x (b & k & s & L & _). eapply U; eauto. }
    destruct (boundary_item _ _ K) as (n & ex & cs & En & In'). assert (PG : pget ps c = Ok n) by (unfold pget; now rewrite En). rewrite PG. cbn [rbind]. rewrite In'.
    assert (EX : exports_of ps c ex) by (exists n, cs; auto).
    destruct (glob_find_spec ps c (im_glob im) T K) as [(m & l & G & EL & I)|(G & EL)]; rewrite EL; cbn [rbind].
    - left. eexists. split.
      + apply (rfilter_ok _ _ (fun x => match nth_error ps x with Some nd => negb (x =? this) && (is_boundary nd || contains_id ex x) | None => false end)).
        intros x Hx. apply I in Hx as (k & s & (nd & E' & _) & _). unfold pget. now rewrite E'.
      + intros x. rewrite filter_In, I. split.
        * intros [(k & s & H & M) B]. exists c, k, s. split; [now apply U|]. split; auto. split; [exists m; auto|].
          destruct H as (nd & E' & KD & _). rewrite E' in B. apply andb_true_iff in B as [B1 B2]. apply negb_true_iff, Nat.eqb_neq in B1. split; auto.
          apply orb_true_iff in B2 as [B2|B2]; [left; apply is_boundary_kind in B2; congruence|]. right. exists ex. split; auto. now apply contains_id_in.
        * intros (b & k & s & L & H & (m' & G' & M) & NE & B). apply U in L as ->. rewrite G in G'. injection G' as <-. split; [eauto|].
          destruct H as (nd & E' & KD & _). rewrite E'. apply andb_true_iff. split; [now apply negb_true_iff, Nat.eqb_neq|]. apply orb_true_iff.
          destruct B as [->|(l' & EX' & B)]; [left; now apply is_boundary_kind|]. right. apply contains_id_in. now rewrite (exports_fun _ _ _ _ EX EX').
    - right. exists 5. split; auto. split; [lia|]. intros x (b & k & s & _ & _ & (m & G' & _) & _). congruence.
  Qed.

  Lemma resolve_imports_spec : forall ps this ims v, tree ps -> is_kind ps this KBoundary ->
    ((forall im, In im ims -> exists x, imported glob ps this im x) /\
      exists l, rfold (import_step glob ps this) ims v = Ok l /\ forall x, In x l <-> In x v \/ exists im, In im ims /\ imported glob ps this im x) \/
    (~ (forall im, In im ims -> exists x, imported glob ps this im x) /\ exists e, rfold (import_step glob ps this) ims v = Err e /\ 5 <= e <= 9).
  Proof.
    intros ps this ims. induction ims as [|im ims IH]; intros v T HB.
    - left. split; [intros im []|]. exists v. split; auto. intros x. split; auto. intros [H|(im & [] & _)]; auto.
    - cbn [rfold].
      change (import_step glob ps this v im) with (let? x := resolve_import glob ps this im in match x with [] => Err 9 | _ => Ok (v ++ x) end).
      destruct (resolve_import_spec ps this im T HB) as [(l & E & I)|(e & E & HE & N)]; rewrite E; cbn [rbind].
      + destruct l as [|y l].
        * right. split; [|exists 9; split; [auto|lia]]. intros H. destruct (H im) as (x & X); [now left|]. apply I in X. destruct X.
        * cbn [rbind]. destruct (IH (v ++ y :: l) T HB) as [(A & l2 & E2 & I2)|(A & e & E2 & HE)].
          -- left. split; [intros q [<-|Q]; auto; exists y; apply I; now left|]. exists l2. split; auto. intros x. rewrite I2, in_app_iff, I. split.
             ++ intros [[H|H]|(q & Q & H)]; auto; right; [exists im; split; auto; now left|exists q; split; auto; now right].
             ++ intros [H|(q & [<-|Q] & H)]; auto. right. eauto.
          -- right. split; [|eauto]. intros H. apply A. intros q Q. apply H. now right.
      + right. split; [|exists e; split; [auto|lia]]. intros H. destruct (H im) as (x & X); [now left|]. eapply N; eauto.
  Qed.

  Lemma import_to_fold : forall xs to ps, tree ps -> (forall i, In i to -> exists k, is_kind ps i k /\ k <> KBoundary) -> (forall x, In x xs -> x < length ps) ->
    exists ps', rfold (import_to xs) to ps = Ok ps' /\ tree ps' /\ same_tree ps ps' /\ (forall j l, exports_of ps' j l <-> exports_of ps j l) /\
      (forall j l, imports_of ps' j l <-> (In j to /\ l = xs) \/ (~ In j to /\ imports_of ps j l)).
  Proof.
    intros xs to. induction to as [|i to IH]; intros ps T HK HX.
    - exists ps. split; auto. split; auto. split; [apply same_refl|]. split; [tauto|]. intros j l. split; [auto|]. intros [([] & _)|(_ & H)]; auto.
    - cbn [rfold]. change (import_to xs ps i) with (if i <? length ps then Ok (upd i (set_imports xs) ps) else Panic). destruct (HK i (or_introl eq_refl)) as (k & KI & NK).
      assert (HL : i < length ps) by (destruct KI as (? & ? & KI); eapply node_lt; eauto). apply Nat.ltb_lt in HL. rewrite HL. cbn [rbind].
      assert (S1 := upd_same _ ps i (keeps_imports xs)). set (ps1 := upd i (set_imports xs) ps) in *.
      assert (T1 : tree ps1).
      { apply upd_tree; auto; [apply keeps_imports| |].
        - intros b l x H Hx. apply (proj1 (exports_upd_imports _ _ _ _ _)) in H. exact (t_exports _ T b l x H Hx).
        - intros j l x H Hx. apply (imports_upd_imports ps i xs j l k) in H; auto. destruct (i =? j); [subst; auto|exact (t_imports _ T j l x H Hx)]. }
      destruct (IH ps1 T1) as (ps2 & E2 & T2 & S2 & X2 & I2).
      + intros j Hj. destruct (HK j (or_intror Hj)) as (k' & K' & N'). exists k'. split; auto. now apply (same_kind ps).
      + intros x Hx. destruct S1 as [-> _]. auto.
      + exists ps2. split; auto. split; auto. split; [eapply same_trans; eauto|]. split.
        * intros j l. rewrite X2. apply exports_upd_imports.
        * intros j l. rewrite I2. unfold ps1. rewrite (imports_upd_imports ps i xs j l k) by auto. cbn [In]. destruct (Nat.eqb_spec i j) as [->|N].
          -- split; [intros [(H & ->)|(H & ->)]; auto|]. intros [(_ & ->)|(H & _)]; [|exfalso; auto]. destruct (in_dec Nat.eq_dec j to); auto.
          -- split; [intros [(H & ->)|(H & H')]; auto; right; split; auto; intros [->|Q]; auto|]. intros [([->|H] & ->)|(H & H')]; [contradiction|auto|right; split; auto].
  Qed.

  Lemma imported_same : forall a b this im x, same_tree a b -> (forall j l, exports_of b j l <-> exports_of a j l) ->
    (imported glob b this im x <-> imported glob a this im x).
  Proof.
    intros a b this im x S X. split; intros (c & k & s & L & H & M & NE & B); exists c, k, s.
    - split; [eapply same_leads; [apply same_sym|]; eauto|]. split; [now apply S|]. split; auto. split; auto. destruct B as [B|(l & E & B)]; auto. right. exists l. split; auto. now apply X.
    - split; [eapply same_leads; eauto|]. split; [now apply S|]. split; auto. split; auto. destruct B as [B|(l & E & B)]; auto. right. exists l. split; auto. now apply X.
  Qed.

  (** Lists of ids built as sets. *)
  Definition is_set (ps : parts) (l : list nat) : Prop :=
    exists ps0 ids, grows ps0 ps /\ (forall i, In i ids -> i < length ps0) /\ from_vec so ps0 ids = Ok l.

  Lemma add_imports_spec : forall ps b ims to, tree ps -> is_kind ps b KBoundary -> ims <> [] ->
    (forall i, In i to -> exists k, is_kind ps i k /\ k <> KBoundary) ->
    ((forall im, In im ims -> exists x, imported glob ps b im x) /\
      exists ps' xs, add_imports so glob ps b ims to = Ok ps' /\ tree ps' /\ same_tree ps ps' /\ (forall j l, exports_of ps' j l <-> exports_of ps j l) /\
        (forall j l, imports_of ps' j l <-> (In j to /\ l = xs) \/ (~ In j to /\ imports_of ps j l)) /\
        is_set ps xs /\ (forall x, In x xs <-> exists im, In im ims /\ imported glob ps b im x)) \/
    (~ (forall im, In im ims -> exists x, imported glob ps b im x) /\ exists e, add_imports so glob ps b ims to = Err e /\ 5 <= e <= 9).
  Proof.
    intros ps b ims to T HB HN HK. unfold add_imports. destruct ims as [|i0 ims0]; [contradiction|]. set (ims := i0 :: ims0) in *. unfold resolve_imports.
    destruct (resolve_imports_spec ps b ims [] T HB) as [(A & l & E & I)|(A & e & E & HE)]; rewrite E; cbn [rbind]; [|right; eauto].
    left. split; auto.
    assert (LT : forall i, In i l -> i < length ps).
    { intros i Hi. apply I in Hi as [[]|(im & _ & c & k & s & _ & H & _)]. eapply node_lt; eauto. }
    destruct (set_members so ps l HSO LT) as (xs & EX & NX & IX). rewrite EX. cbn [rbind].
    destruct (import_to_fold xs to ps T HK) as (ps' & E' & T' & S' & X' & I').
    { intros x Hx. apply LT, IX; auto. }
    exists ps', xs. split; auto. split; auto. split; auto. split; auto. split; auto. split; [exists ps, l; split; [apply grows_refl|]; auto|].
    intros x. rewrite IX, I. split; [intros [[]|H]; auto|auto].
  Qed.

  Definition imp_ok (ps : parts) (x : nat * list import * list nat) : Prop := forall im, In im (snd (fst x)) -> exists y, imported glob ps (fst (fst x)) im y.

  Lemma imports_phase : forall (is : list (nat * list import * list nat)) ps, tree ps ->
    (forall x, In x is -> is_kind ps (fst (fst x)) KBoundary /\ snd (fst x) <> [] /\ forall i, In i (snd x) -> exists k, is_kind ps i k /\ k <> KBoundary) ->
    NoDup (concat (map snd is)) ->
    ((forall x, In x is -> imp_ok ps x) /\
      exists ps', rfold (fun ps x => let '(b, ims, ns) := x in add_imports so glob ps b ims ns) is ps = Ok ps' /\ tree ps' /\ same_tree ps ps' /\
        (forall j l, exports_of ps' j l <-> exports_of ps j l) /\
        (forall x j, In x is -> In j (snd x) -> exists l, imports_of ps' j l /\ is_set ps l /\
           forall y, In y l <-> exists im, In im (snd (fst x)) /\ imported glob ps (fst (fst x)) im y) /\
        (forall j l, ~ In j (concat (map snd is)) -> (imports_of ps' j l <-> imports_of ps j l))) \/
    (~ (forall x, In x is -> imp_ok ps x) /\ exists e, rfold (fun ps x => let '(b, ims, ns) := x in add_imports so glob ps b ims ns) is ps = Err e /\ 5 <= e <= 9).
  Proof.
    induction is as [|[[b ims] to] is IH]; intros ps T HK ND.
    - left. split; [intros x []|]. exists ps. split; auto. split; auto. split; [apply same_refl|]. split; [tauto|]. split; [intros x j []|]. tauto.
    - cbn [rfold map concat snd] in *. destruct (HK _ (or_introl eq_refl)) as (HB & HN & HT). cbn [fst snd] in HB, HN, HT.
      apply NoDup_app_iff in ND as (ND1 & ND2 & ND3).
      destruct (add_imports_spec ps b ims to T HB HN HT) as [(A & ps1 & xs & E1 & T1 & S1 & X1 & I1 & SX & IX)|(A & e & E1 & HE)]; rewrite E1; cbn [rbind].
      + assert (OK : forall x, imp_ok ps1 x <-> imp_ok ps x).
        { intros x. unfold imp_ok. split; intros H im Him; destruct (H im Him) as (y & Y); exists y; now apply (imported_same ps ps1). }
        destruct (IH ps1 T1) as [(A2 & ps2 & E2 & T2 & S2 & X2 & I2 & R2)|(A2 & e & E2 & HE)]; auto.
        { intros x Hx. destruct (HK x (or_intror Hx)) as (K1 & K2 & K3). split; [now apply (same_kind ps)|]. split; auto. intros i Hi. destruct (K3 i Hi) as (k & K4 & K5).
          exists k. split; auto. now apply (same_kind ps). }
        * left. split; [intros x [<-|Hx]; [exact A|apply OK; auto]|]. exists ps2. split; auto. split; auto. split; [eapply same_trans; eauto|].
          split; [intros j l; rewrite X2; apply X1|]. split.
          -- intros x j [<-|Hx] Hj; cbn [fst snd] in *.
             ++ exists xs. split; [|split; auto]. apply R2; [intros Q; eapply ND3; eauto|]. apply I1. auto.
             ++ destruct (I2 x j Hx Hj) as (l & L1 & L2 & L3). exists l. split; auto. split.
                ** destruct L2 as (ps0 & ids & G0 & F). exists ps0, ids. split; auto. eapply grows_trans; [exact G0|]. apply same_grows. now apply same_sym.
                ** intros y. rewrite L3. split; intros (im & Him & Y); exists im; (split; [auto|]); now apply (imported_same ps ps1).
          -- intros j l Hj. rewrite R2, I1; [|intros Q; apply Hj, in_or_app; auto]. split; [intros [(Q & _)|(_ & H)]; auto; exfalso; apply Hj, in_or_app; auto|].
             intros H. right. split; auto. intros Q. apply Hj, in_or_app; auto.
        * right. split; [|eauto]. intros H. apply A2. intros x Hx. apply OK. apply H. now right.
      + right. split; [|eauto]. intros H. apply A. apply (H (b, ims, to)). now left.
  Qed.
End Use.
