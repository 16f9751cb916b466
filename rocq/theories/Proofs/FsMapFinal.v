From Coq Require Import String List NArith Arith Bool Lia Permutation Sorted.
From Verif Require Import Model.Base Model.FsMap Spec.FsMapSpec Proofs.SortProofs Proofs.FsMapProofs.
Import ListNotations.

(** ** Orders of listings *)
Lemma forall2_flip : forall A B (R : A -> B -> Prop) a b, Forall2 R a b -> Forall2 (fun x y => R y x) b a.
Proof. intros A B R a b H. induction H; constructor; auto. Qed.

Lemma same_sym : forall a b, same_node a b -> same_node b a.
Proof.
  induction a as [t|ds IH|] using node_rec'; intros b H; inversion H as [t'| |ds0 ds1 ds2 H2 H3]; subst; try constructor.
  assert (Q : Forall2 same_item ds2 ds1).
  { assert (IH1 : forall n nd, In (Some (n, nd)) ds1 -> forall b, same_node nd b -> same_node b nd).
    { intros n nd I. apply (IH n). eapply Permutation_in; [apply Permutation_sym|]; eauto. }
    clear - H3 IH1. induction H3 as [|x y l l' Hxy H3 IH]; constructor.
    - inversion Hxy; subst; constructor. apply (IH1 n); cbn; auto.
    - apply IH. intros n nd I. apply (IH1 n). cbn; auto. }
  destruct (Permutation_Forall2 (Permutation_sym H2) (forall2_flip _ _ _ _ _ Q)) as (l' & P & Q').
  econstructor; [exact P|]. apply forall2_flip in Q'. exact Q'.
Qed.

Lemma same_in : forall ds ds', same_node (Dir ds) (Dir ds') -> forall x, In x ds -> exists y, In y ds' /\ same_item x y.
Proof.
  intros ds ds' H x I. inversion H as [t'| |ds0 ds1 ds2 H1 H3]; subst. apply (Permutation_in _ H1) in I.
  clear - H3 I. induction H3 as [|a b l l' Hab H3 IH]; [destruct I|]. destruct I as [->|I].
  - exists b. cbn; auto.
  - destruct (IH I) as (y & A & B). exists y. cbn; auto.
Qed.

Lemma same_dir_at : forall es es' p ds, same_node (Dir es) (Dir es') -> dir_at es p ds ->
  exists ds', dir_at es' p ds' /\ same_node (Dir ds) (Dir ds').
Proof.
  intros es es' p ds S H. induction H as [|p ds n sub H IH I].
  - exists es'. split; auto. constructor.
  - destruct IH as (ds' & A & B). destruct (same_in _ _ B _ I) as (y & Iy & Sy). inversion Sy as [|n' a b Sab]; subst.
    inversion Sab as [| |u u1 u2 P Q]; subst. exists u2. split; [|exact Sab]. econstructor; eauto.
Qed.

Lemma same_names : forall ds ds', same_node (Dir ds) (Dir ds') -> Permutation (names ds) (names ds').
Proof.
  intros ds ds' H. inversion H as [t'| |ds0 ds1 ds2 H1 H3]; subst. transitivity (names ds1).
  - unfold names. apply Permutation_flat_map. auto.
  - clear - H3. induction H3 as [|a b l l' Hab H3 IH]; auto. unfold names in *. cbn [flat_map]. apply Permutation_app; auto.
    inversion Hab; auto.
Qed.

Lemma same_distinct : forall es es', same_node (Dir es) (Dir es') -> distinct es -> distinct es'.
Proof.
  intros es es' S D p ds H. destruct (same_dir_at _ _ _ _ (same_sym _ _ S) H) as (ds' & A & B).
  eapply Permutation_NoDup; [apply same_names, same_sym; exact B|]. apply (D p). exact A.
Qed.

Lemma ogma_dec : forall n, {ogma_name n} + {~ ogma_name n}.
Proof.
  intros n. destruct (is_ogma n) eqn:E.
  - left. apply is_ogma_spec. exact E.
  - right. intros H. apply is_ogma_spec in H. congruence.
Qed.

Lemma ogma_files_ex : forall ds, exists fs, ogma_files ds fs.
Proof.
  induction ds as [|e ds (fs & IH)]; [exists []; constructor|].
  destruct e as [[n [t|sub|]]|]; try (exists fs; constructor; [discriminate|auto]).
  destruct (ogma_dec n).
  - exists ((n, t) :: fs). constructor; auto.
  - exists fs. constructor; auto. intros m u E. injection E as <- _. auto.
Qed.

Lemma ogma_files_perm : forall ds ds', Permutation ds ds' -> forall fs, ogma_files ds fs ->
  exists fs', ogma_files ds' fs' /\ Permutation fs fs'.
Proof.
  intros ds ds' P. induction P as [|x l l' P IH|x y l|l l' l'' P1 IH1 P2 IH2]; intros fs H.
  - exists fs. auto.
  - inversion H as [|n t l0 fs0 O H4|e l0 fs0 O H4]; subst.
    + destruct (IH _ H4) as (fs' & A & B). eexists. split; [constructor; eauto|]. constructor; auto.
    + destruct (IH _ H4) as (fs' & A & B). eexists. split; [apply of_skip; eauto|]. auto.
  - inversion H as [|n t l0 fs0 O H'|e l0 fs0 O H']; subst; inversion H' as [|n' t' l1 fs1 O' H''|e' l1 fs1 O' H'']; subst.
    + eexists. split; [constructor; [auto|constructor; eauto]|]. apply perm_swap.
    + eexists. split; [apply of_skip; [auto|constructor; eauto]|]. auto.
    + eexists. split; [constructor; [auto|apply of_skip; eauto]|]. auto.
    + eexists. split; [apply of_skip; [auto|apply of_skip; eauto]|]. auto.
  - destruct (IH1 _ H) as (f1 & A & B). destruct (IH2 _ A) as (f2 & C & D). exists f2. split; auto. etransitivity; eauto.
Qed.

Lemma ogma_files_same : forall ds ds' fs fs', same_node (Dir ds) (Dir ds') -> ogma_files ds fs -> ogma_files ds' fs' -> Permutation fs fs'.
Proof.
  intros ds ds' fs fs' H A B. inversion H as [t'| |ds0 ds1 ds2 H1 H3]; subst. destruct (ogma_files_perm _ _ H1 _ A) as (f1 & C & D).
  assert (f1 = fs'); [|subst; auto]. clear - H3 C B. revert f1 fs' C B.
  induction H3 as [|x y l l' Hxy H3 IH]; intros f f' C B.
  - inversion C; inversion B; auto.
  - inversion Hxy as [|n a b Hab]; subst.
    + inversion C; inversion B; subst. auto.
    + inversion Hab; subst.
      * inversion C; inversion B; subst; auto.
        -- f_equal; auto.
        -- exfalso. match goal with K : forall n t, _ = _ -> ~ _ |- _ => eapply K; eauto end.
        -- exfalso. match goal with K : forall n t, _ = _ -> ~ _ |- _ => eapply K; eauto end.
      * inversion C; inversion B; subst. auto.
      * inversion C; inversion B; subst. auto.
Qed.

Section Final.
  Variable F : Type.
  Variable parse : list str -> str -> res F.
  Hypothesis no_panic : forall p t, parse p t <> Panic.

  Lemma build_total : forall es, distinct es -> build_fs_map parse es <> Panic.
  Proof.
    intros es D E. pose proof (build_cases F parse es D) as C. rewrite E in C.
    destruct C as (p & ds & n & t & _ & _ & C). exact (no_panic _ _ C).
  Qed.

  Lemma build_ok : forall es, distinct es ->
    ((exists m, build_fs_map parse es = Ok m) <-> ~ unreadable es /\ ~ clash es /\ forall e, ~ file_fails F parse es e).
  Proof.
    intros es D. pose proof (build_cases F parse es D) as C. pose proof (build_total es D) as T.
    destruct (build_fs_map parse es) as [m|e|]; [| |congruence].
    - split; [tauto|]. eauto.
    - split; [intros (m & E); discriminate|]. intros (A & B & G). exfalso.
      destruct C as [[_ C]|[[_ C]|C]]; auto. exact (G _ C).
  Qed.

  Lemma build_cause : forall es e, distinct es -> build_fs_map parse es = Err e ->
    (e = 0 /\ unreadable es) \/ (e = 1 /\ clash es) \/ file_fails F parse es e.
  Proof. intros es e D E. pose proof (build_cases F parse es D) as C. rewrite E in C. exact C. Qed.

  Lemma build_map : forall es m, distinct es -> build_fs_map parse es = Ok m ->
    (forall p vs, In (p, vs) m <-> partition_at F parse es p vs) /\
    StronglySorted (fun a b => path_cmp (fst a) (fst b) = Lt) m.
  Proof. intros es m D E. pose proof (build_cases F parse es D) as C. rewrite E in C. split; apply C. Qed.

  (** *** Order *)
  Lemma same_part_in : forall es es', same_node (Dir es) (Dir es') ->
    (unreadable es -> unreadable es') /\ (clash es -> clash es') /\ (forall e, file_fails F parse es e -> file_fails F parse es' e).
  Proof.
    intros es es' S. split; [|split].
    - intros (p & ds & A & B). destruct (same_dir_at _ _ _ _ S A) as (ds' & A' & S'). exists p, ds'. split; auto.
      destruct (same_in _ _ S' _ B) as (y & I & Sy). inversion Sy; subst. auto.
    - intros (s & t & sub & Hs & A & B). destruct (same_in _ _ S _ A) as (y & I & Sy). inversion Sy as [|n a b Sab]; subst.
      inversion Sab; subst. destruct (same_in _ _ S _ B) as (z & Iz & Sz). inversion Sz as [|n' a' b' Sab']; subst.
      inversion Sab'; subst. exists s, t, ds2. auto.
    - intros e (p & ds & n & t & A & B & O & C). destruct (same_dir_at _ _ _ _ S A) as (ds' & A' & S').
      destruct (same_in _ _ S' _ B) as (y & I & Sy). inversion Sy as [|n' a b Sab]; subst. inversion Sab; subst.
      exists p, ds', n, t. auto.
  Qed.

  Lemma same_partition : forall es es' p vs, same_node (Dir es) (Dir es') -> partition_at F parse es p vs ->
    exists vs', partition_at F parse es' p vs' /\ Permutation vs vs'.
  Proof.
    intros es es' p vs S H. inversion H as [s t w Hs I P Ek Ev|p' ds fs vs0 Hp Da O Hf P Ek Ev]; subst.
    - exists [w]. split; auto. destruct (same_in _ _ S _ I) as (y & Iy & Sy). inversion Sy as [|n a b Sab]; subst.
      inversion Sab; subst. eapply part_file; eauto.
    - destruct (same_dir_at _ _ _ _ S Da) as (ds' & Da' & S'). destruct (ogma_files_ex ds') as (fs' & O').
      pose proof (ogma_files_same _ _ _ _ S' O O') as Pf. destruct (Permutation_Forall2 Pf P) as (vs' & Pv & P').
      exists vs'. split; auto. eapply part_dir; eauto. intros ->. apply Permutation_sym, Permutation_nil in Pf. congruence.
  Qed.

  Lemma partition_fun : forall es p vs vs', distinct es -> ~ clash es -> partition_at F parse es p vs -> partition_at F parse es p vs' -> vs = vs'.
  Proof.
    intros es p vs vs' D NC H H'.
    assert (U : forall es, NoDup (names es) -> forall n a b, In (Some (n, a)) es -> In (Some (n, b)) es -> a = b).
    { clear. induction es as [|[[m c]|] es IH]; intros N n a b I J; [destruct I| |].
      - cbn [names flat_map app] in N. apply NoDup_cons_iff in N. destruct N as [N1 N2]. destruct I as [I|I], J as [J|J].
        + congruence.
        + injection I as -> ->. exfalso. apply N1. eapply names_in; eauto.
        + injection J as -> ->. exfalso. apply N1. eapply names_in; eauto.
        + eapply IH; eauto.
      - destruct I as [I|I]; [discriminate|]. destruct J as [J|J]; [discriminate|]. eapply IH; eauto. }
    assert (DU : forall p ds ds', dir_at es p ds -> dir_at es p ds' -> ds = ds').
    { clear - D U. intros p ds ds' H. revert ds'. induction H as [|p ds n sub H IH I]; intros ds' H'.
      - apply dir_at_nil in H'. auto.
      - inversion H' as [E|p' d' n' s' H1 I1 E]; [destruct p; discriminate|]. apply app_inj_tail in E. destruct E as [-> ->].
        subst. rewrite <- (IH _ H1) in I1. assert (Dir sub = Dir ds'); [|congruence]. exact (U _ (D _ _ H) _ _ _ I I1). }
    inversion H as [s t w Hs I P Ek Ev|p' ds fs vs0 Hp Da O Hf P Ek Ev]; subst;
    inversion H' as [s' t' w' Hs' I' P' Ek' Ev'|p' ds' fs' vs0' Hp' Da' O' Hf' P' Ek' Ev']; subst.
    - assert (N : NoDup (names es)) by (apply (D []); constructor).
      pose proof (U _ N _ _ _ I I') as E. injection E as ->. rewrite (parsed_fun F parse _ _ _ _ P P'). reflexivity.
    - exfalso. apply NC. apply dir_at_cons in Da'. destruct Da' as (sub & A & _). exists s, t, sub. auto.
    - exfalso. apply NC. apply dir_at_cons in Da. destruct Da as (sub & A & _). exists s', t', sub. auto.
    - pose proof (DU _ _ _ Da Da') as <-. pose proof (ogma_files_det _ _ _ O O') as <-. eapply parsed_fun_list; eauto.
  Qed.

  Lemma sorted_keys : forall A (a b : list (list str * A)),
    StronglySorted (fun x y => path_cmp (fst x) (fst y) = Lt) a -> StronglySorted (fun x y => path_cmp (fst x) (fst y) = Lt) b ->
    (forall k, In k (map fst a) <-> In k (map fst b)) -> map fst a = map fst b.
  Proof.
    induction a as [|[k v] a IH]; intros [|[k' v'] b] Sa Sb H; auto.
    - exfalso. apply (H k'). cbn; auto.
    - exfalso. apply (H k). cbn; auto.
    - apply StronglySorted_inv in Sa. apply StronglySorted_inv in Sb. destruct Sa as [Sa Ha], Sb as [Sb Hb].
      rewrite Forall_forall in Ha, Hb.
      assert (La : forall x, In x (map fst a) -> path_cmp k x = Lt).
      { intros x I. apply in_map_iff in I. destruct I as (y & <- & I). exact (Ha y I). }
      assert (Lb : forall x, In x (map fst b) -> path_cmp k' x = Lt).
      { intros x I. apply in_map_iff in I. destruct I as (y & <- & I). exact (Hb y I). }
      assert (R : forall x, path_cmp x x = Eq) by (intros x; apply path_cmp_eq; reflexivity).
      cbn [map fst] in *.
      assert (k = k') as <-.
      { destruct (proj1 (H k) (or_introl eq_refl)) as [E|I]; auto. destruct (proj2 (H k') (or_introl eq_refl)) as [E|I']; auto.
        apply Lb in I. apply La in I'. rewrite path_cmp_antisym, I in I'. discriminate. }
      f_equal. apply IH; auto. intros x. split; intros I.
      + destruct (proj1 (H x) (or_intror I)) as [E|I']; auto. subst x. apply La in I. rewrite R in I. discriminate.
      + destruct (proj2 (H x) (or_intror I)) as [E|I']; auto. subst x. apply Lb in I. rewrite R in I. discriminate.
  Qed.

  Lemma build_order : forall es es' m, distinct es -> same_node (Dir es) (Dir es') -> build_fs_map parse es = Ok m ->
    exists m', build_fs_map parse es' = Ok m' /\ Forall2 (fun a b => fst a = fst b /\ Permutation (snd a) (snd b)) m m'.
  Proof.
    intros es es' m D S E. pose proof (same_distinct _ _ S D) as D'. pose proof (same_sym _ _ S) as S'.
    assert (exists m', build_fs_map parse es' = Ok m') as (m' & E').
    { apply build_ok; auto. assert (L : exists m, build_fs_map parse es = Ok m) by eauto. apply (build_ok es D) in L.
      destruct (same_part_in _ _ S') as (A & B & C). destruct L as (L1 & L2 & L3). split; [auto|]. split; [auto|].
      intros e H. exact (L3 e (C e H)). }
    exists m'. split; auto. assert (NC' : ~ clash es') by (apply (build_ok es' D'); eauto).
    destruct (build_map _ _ D E) as [M O], (build_map _ _ D' E') as [M' O'].
    assert (K : map fst m = map fst m').
    { apply sorted_keys; auto. intros k. split; intros I; apply in_map_iff in I; destruct I as ([k0 v] & <- & I); cbn [fst].
      - apply M in I. destruct (same_partition _ _ _ _ S I) as (v' & I' & _). apply M' in I'. apply (in_map fst) in I'. exact I'.
      - apply M' in I. destruct (same_partition _ _ _ _ S' I) as (v' & I' & _). apply M in I'. apply (in_map fst) in I'. exact I'. }
    assert (V : forall k v v', In (k, v) m -> In (k, v') m' -> Permutation v v').
    { intros k v v' I I'. apply M in I. apply M' in I'. destruct (same_partition _ _ _ _ S I) as (w & Iw & P).
      rewrite (partition_fun _ _ _ _ D' NC' I' Iw). exact P. }
    clear - K V. revert m' K V. induction m as [|[k v] m IH]; intros [|[k' v'] m'] K V; try discriminate; constructor.
    - injection K as -> _. split; [reflexivity|]. apply (V k'); cbn; auto.
    - apply IH; [injection K; auto|]. intros x a b I J. apply (V x); cbn; auto.
  Qed.
End Final.

(** ** Every file once *)
Definition by_path (p : list str) (t : str) : res (list str) := Ok p.

Lemma nodup_concat : forall A B (g : B -> A) (m : list (A * list B)), NoDup (map fst m) ->
  (forall k v, In (k, v) m -> NoDup v /\ forall q, In q v -> g q = k) -> NoDup (concat (map snd m)).
Proof.
  intros A B g. induction m as [|[k v] m IH]; intros N H; cbn [map concat]; [constructor|].
  cbn [map fst] in N. apply NoDup_cons_iff in N. destruct N as [N1 N2]. cbn [snd].
  destruct (H k v (or_introl eq_refl)) as [H1 H2]. apply nodup_app; auto.
  - apply IH; auto. intros; apply H; cbn; auto.
  - intros q I J. apply N1. apply in_concat in J. destruct J as (w & J1 & J2). apply in_map_iff in J1.
    destruct J1 as ([k' w'] & <- & J1). destruct (H k' w' (or_intror J1)) as [_ H3]. rewrite <- (H2 q I), (H3 q J2).
    apply (in_map fst) in J1. exact J1.
Qed.

Lemma by_path_vals : forall p fs vs, Forall2 (parsed _ by_path p) fs vs -> vs = map (fun nt => p ++ [fst nt]) fs.
Proof.
  intros p fs vs H. induction H as [|x y fs vs H H' IH]; auto. destruct H as (t & _ & H). injection H as <-. cbn [map]. congruence.
Qed.

Lemma build_once : forall es m, distinct es -> build_fs_map by_path es = Ok m ->
  NoDup (concat (map snd m)) /\
  forall p n, In (p ++ [n]) (concat (map snd m)) <-> exists ds t, dir_at es p ds /\ In (Some (n, File t)) ds /\ ogma_name n.
Proof.
  intros es m D E. assert (NP : forall p t, by_path p t <> Panic) by discriminate.
  destruct (build_map _ _ _ _ D E) as [M O]. split.
  - apply nodup_concat with (g := fun q => match q with [n] => [stem n] | _ => removelast q end).
    + clear - O. induction O as [|a l O IH H]; cbn [map]; constructor; auto. intros I. apply in_map_iff in I.
      destruct I as (y & Ey & I). rewrite Forall_forall in H. apply H in I. rewrite Ey in I.
      rewrite (proj2 (path_cmp_eq _ _) eq_refl) in I. discriminate.
    + intros k v I. apply M in I. inversion I as [s t w Hs I' P Ek Ev|p' ds fs vs0 Hp Da O' Hf P Ek Ev]; subst.
      * split; [repeat constructor; intros []|]. intros q [<-|[]]. destruct P as (u & _ & P). injection P as <-.
        cbn [app fst]. rewrite stem_ogma by auto. reflexivity.
      * apply by_path_vals in P. subst v. split.
        -- assert (NoDup (map fst fs)) as N.
           { pose proof (D _ _ Da) as N. clear - N O'. induction O' as [|n t ds fs O H IH|e ds fs O H IH].
             - constructor.
             - cbn [names flat_map app] in N. apply NoDup_cons_iff in N. destruct N as [N1 N2]. cbn [map fst].
               constructor; auto. intros I. apply N1. apply in_map_iff in I. destruct I as ([x t'] & <- & I).
               apply (ogma_files_in _ _ H) in I. destruct I as [I _]. eapply names_in; eauto.
             - apply IH. destruct e as [[x nd]|]; cbn [names flat_map app] in N; auto. apply NoDup_cons_iff in N. apply N. }
           clear - N. induction fs as [|x fs IH]; cbn [map] in *; constructor.
           ++ intros I. apply in_map_iff in I. destruct I as (y & Ey & I). apply app_inj_tail in Ey. destruct Ey as [_ Ey].
              apply NoDup_cons_iff in N. apply N. rewrite <- Ey. apply in_map. exact I.
           ++ apply IH. apply NoDup_cons_iff in N. apply N.
        -- intros q I'. apply in_map_iff in I'. destruct I' as (x & <- & _). rewrite removelast_last.
           destruct k as [|a k]; [congruence|]. destruct k; reflexivity.
  - intros p n. rewrite in_concat. split.
    + intros (v & A & B). apply in_map_iff in A. destruct A as ([k w] & <- & A). cbn [snd] in B. apply M in A.
      inversion A as [s t w' Hs I' P Ek Ev|p' ds fs vs0 Hp Da O' Hf P Ek Ev]; subst.
      * destruct B as [B|[]]. destruct P as (u & _ & P). unfold by_path in P. cbn [fst] in P.
        assert (P' : [] ++ [s ++ lit ".ogma"] = p ++ [n]) by congruence. apply app_inj_tail in P'. destruct P' as [<- <-].
        exists es, t. split; [constructor|]. split; auto. exists s; auto.
      * apply by_path_vals in P. subst w. apply in_map_iff in B. destruct B as ([x t] & Ex & B). apply app_inj_tail in Ex.
        destruct Ex as [-> Ex]. cbn [fst] in Ex. subst x. apply (ogma_files_in _ _ O') in B. exists ds, t. tauto.
    + intros (ds & t & Da & I & On).
      assert (NF : forall e, ~ file_fails _ by_path es e) by (apply (build_ok _ _ NP es D); eauto).
      destruct t as [t|]; [|exfalso; apply (NF 2); exists p, ds, n, None; auto].
      destruct p as [|a p].
      * apply dir_at_nil in Da. subst ds. destruct On as (s & Hs & ->). exists [[s ++ lit ".ogma"]].
        split; [|cbn [app In]; auto]. apply in_map_iff. exists ([s], [[s ++ lit ".ogma"]]). split; [reflexivity|].
        apply M. eapply part_file; eauto. exists t. split; reflexivity.
      * destruct (ogma_files_ex ds) as (fs & Of). assert (If : In (n, Some t) fs) by (apply (ogma_files_in _ _ Of); auto).
        exists (map (fun nt => (a :: p) ++ [fst nt]) fs). split.
        -- apply in_map_iff. exists (a :: p, map (fun nt => (a :: p) ++ [fst nt]) fs). split; [reflexivity|].
           apply M. eapply part_dir; eauto; [discriminate|intros ->; destruct If|].
           assert (Q : forall x u, In (x, u) fs -> exists t, u = Some t).
           { intros x u Ix. apply (ogma_files_in _ _ Of) in Ix. destruct u as [u|]; eauto. exfalso.
             apply (NF 2). exists (a :: p), ds, x, None. tauto. }
           clear - Q. induction fs as [|[x u] fs IH]; cbn [map]; constructor.
           ++ destruct (Q x u (or_introl eq_refl)) as (t & ->). exists t. split; reflexivity.
           ++ apply IH. intros y v I. apply (Q y). cbn; auto.
        -- apply in_map_iff. exists (n, Some t). split; auto.
Qed.
