From Coq Require Import String List NArith Arith Bool Lia Permutation Sorted.
From Verif Require Import Model.Base Model.FsMap Spec.FsMapSpec Proofs.SortProofs.
Import ListNotations.

(** ** Order of paths *)
Lemma lt_trans : forall a b c, str_cmp a b = Lt -> str_cmp b c = Lt -> str_cmp a c = Lt.
Proof.
  intros a b c A B. destruct (str_cmp a c) eqn:E; auto.
  - apply str_cmp_eq in E. subst. rewrite str_cmp_antisym, B in A. discriminate.
  - exfalso. apply (str_cmp_trans a b c); congruence.
Qed.

Lemma comp_key_eq : forall a b, str_cmp (comp_key a) (comp_key b) = Eq <-> a = b.
Proof.
  intros a b. rewrite str_cmp_eq. split; [|congruence]. unfold comp_key. intros H. injection H. auto.
Qed.

Lemma path_cmp_eq : forall a b, path_cmp a b = Eq <-> a = b.
Proof.
  induction a as [|x a IH]; destruct b as [|y b]; cbn [path_cmp]; try (split; congruence).
  pose proof (comp_key_eq x y) as K. destruct (str_cmp (comp_key x) (comp_key y)) eqn:E.
  - rewrite IH. pose proof (proj1 K eq_refl). split; [congruence|]. intros H'; injection H'; auto.
  - split; [discriminate|]. intros H; injection H as -> ->. apply K. reflexivity.
  - split; [discriminate|]. intros H; injection H as -> ->. apply K. reflexivity.
Qed.

Lemma path_cmp_antisym : forall a b, path_cmp b a = CompOpp (path_cmp a b).
Proof.
  induction a as [|x a IH]; destruct b as [|y b]; cbn [path_cmp]; auto.
  rewrite (str_cmp_antisym (comp_key x) (comp_key y)). destruct (str_cmp (comp_key x) (comp_key y)); cbn; auto.
Qed.

Lemma path_lt_trans : forall a b c, path_cmp a b = Lt -> path_cmp b c = Lt -> path_cmp a c = Lt.
Proof.
  induction a as [|x a IH]; destruct b as [|y b]; destruct c as [|z c]; cbn [path_cmp]; try congruence.
  destruct (str_cmp (comp_key x) (comp_key y)) eqn:E; try discriminate;
  destruct (str_cmp (comp_key y) (comp_key z)) eqn:E'; try discriminate.
  - apply comp_key_eq in E. apply comp_key_eq in E'. subst. rewrite (proj2 (comp_key_eq z z) eq_refl). apply IH.
  - apply comp_key_eq in E. subst. rewrite E'. auto.
  - apply comp_key_eq in E'. subst. rewrite E. auto.
  - rewrite (lt_trans _ _ _ E E'). auto.
Qed.

(** ** Names *)
Lemma cut_last_dot_some : forall s a b, cut_last_dot s = Some (a, b) <-> s = a ++ 46%N :: b /\ ~ In 46%N b.
Proof.
  assert (N : forall s, cut_last_dot s = None <-> ~ In 46%N s).
  { induction s as [|c s IH]; cbn [cut_last_dot In]; [split; auto|].
    destruct (cut_last_dot s) as [[a b]|].
    - split; [discriminate|]. intros H. exfalso. apply H. right. destruct (in_dec N.eq_dec 46%N s); auto.
      exfalso. apply IH in n. discriminate.
    - destruct (N.eqb_spec c 46).
      + split; [discriminate|]. intros H. exfalso. apply H. auto.
      + split; auto. intros _ [H|H]; [congruence|]. apply (proj1 IH); auto. }
  induction s as [|c s IH]; intros a b; cbn [cut_last_dot].
  - split; [discriminate|]. intros [H _]. destruct a; discriminate.
  - destruct (cut_last_dot s) as [[a' b']|] eqn:E.
    + destruct (proj1 (IH a' b') eq_refl) as [Hs Hb]. split.
      * intros H; injection H as <- <-. subst s. auto.
      * intros [H Hn]. destruct a as [|x a]; cbn [app] in H; injection H as -> H.
        -- exfalso. apply Hn. rewrite <- H, Hs. apply in_app_iff. right. left. reflexivity.
        -- assert (Some (a', b') = Some (a, b)) as Q by (apply IH; auto). congruence.
    + pose proof (proj1 (N s) E) as Hs. destruct (N.eqb_spec c 46).
      * subst c. split.
        -- intros H; injection H as <- <-. auto.
        -- intros [H Hn]. destruct a as [|x a]; cbn [app] in H; injection H as H.
           ++ congruence.
           ++ exfalso. apply Hs. rewrite H0. apply in_app_iff. right. left. reflexivity.
      * split; [discriminate|]. intros [H Hn]. destruct a as [|x a]; cbn [app] in H; injection H as H.
        -- congruence.
        -- exfalso. apply Hs. rewrite H0. apply in_app_iff. right. left. reflexivity.
Qed.

Lemma stem_of : forall s, s <> [] -> split_ext (s ++ lit ".ogma") = (s, Some (lit "ogma")).
Proof.
  intros s Hs. unfold split_ext.
  destruct (str_eqb_spec (s ++ lit ".ogma") (lit "..")) as [E|E].
  - exfalso. apply (f_equal (@length N)) in E. rewrite app_length in E. cbn in E. lia.
  - assert (cut_last_dot (s ++ lit ".ogma") = Some (s, lit "ogma")) as ->.
    { apply cut_last_dot_some. split; [reflexivity|]. intros H. repeat (destruct H as [H|H]; [discriminate|]). destruct H. }
    destruct s; congruence.
Qed.

Lemma is_ogma_spec : forall n, is_ogma n = true <-> ogma_name n.
Proof.
  intros n. split.
  - unfold is_ogma, split_ext. destruct (str_eqb n (lit "..")); cbn [snd]; [discriminate|].
    destruct (cut_last_dot n) as [[a b]|] eqn:E; cbn [snd]; [|discriminate].
    destruct a as [|x a]; cbn [snd]; [discriminate|]. destruct (str_eqb_spec b (lit "ogma")); [|discriminate].
    intros _. subst b. apply cut_last_dot_some in E. destruct E as [-> _]. exists (x :: a). split; [discriminate|reflexivity].
  - intros (s & Hs & ->). unfold is_ogma. rewrite stem_of by auto. apply str_eqb_refl.
Qed.

Lemma stem_ogma : forall s, s <> [] -> stem (s ++ lit ".ogma") = s.
Proof. intros s H. unfold stem. rewrite stem_of; auto. Qed.

(** ** Reaching directories *)
Lemma dir_at_cons : forall es n q ds, dir_at es (n :: q) ds <-> exists sub, In (Some (n, Dir sub)) es /\ dir_at sub q ds.
Proof.
  split.
  - intros H. remember (n :: q) as p eqn:E. revert n q E. induction H as [|p ds m sub H IH I]; intros n q E; [discriminate|].
    destruct p as [|x p]; cbn [app] in E; injection E as -> <-.
    + inversion H; subst; [|destruct p; discriminate]. exists sub. split; auto. constructor.
    + destruct (IH _ _ eq_refl) as (s & A & B). exists s. split; auto. econstructor; eauto.
  - intros (sub & I & H). induction H as [|p ds m sub' H IH I'].
    + change [n] with ([] ++ [n]). econstructor; eauto. constructor.
    + change (n :: p ++ [m]) with ((n :: p) ++ [m]). econstructor; eauto.
Qed.

Lemma dir_at_nil : forall es ds, dir_at es [] ds -> ds = es.
Proof. intros es ds H. inversion H; auto. destruct p; discriminate. Qed.

Lemma distinct_sub : forall es n sub, distinct es -> In (Some (n, Dir sub)) es -> distinct sub.
Proof. intros es n sub D I p ds H. apply (D (n :: p) ds). apply dir_at_cons. eauto. Qed.

Lemma node_rec' (P : node -> Prop) :
  (forall t, P (File t)) -> (forall ds, (forall n nd, In (Some (n, nd)) ds -> P nd) -> P (Dir ds)) -> P Other -> forall nd, P nd.
Proof.
  intros A B C. fix IH 1. intros [t|ds|]; [apply A| |apply C]. apply B.
  induction ds as [|[[m nd']|] ds IHds]; [intros n nd []| |]; intros n nd [H|H].
  - injection H as _ <-. apply IH.
  - exact (IHds n nd H).
  - discriminate.
  - exact (IHds n nd H).
Qed.

(** Directories in the order the walk takes them. *)
Fixpoint preorder (pt : list str) (nd : node) : list (list str * listing) :=
  match nd with
  | Dir items =>
      (pt, items) ::
      (fix go (es : listing) (acc : list (list str * listing)) :=
         match es with
         | [] => acc
         | Some (n, nd) :: es => go es (preorder (pt ++ [n]) nd ++ acc)
         | None :: es => go es acc
         end) items []
  | _ => []
  end.
Fixpoint below (pt : list str) (es : listing) (acc : list (list str * listing)) : list (list str * listing) :=
  match es with
  | [] => acc
  | Some (n, nd) :: es => below pt es (preorder (pt ++ [n]) nd ++ acc)
  | None :: es => below pt es acc
  end.
Lemma preorder_dir : forall pt es, preorder pt (Dir es) = (pt, es) :: below pt es [].
Proof.
  intros pt es. cbn [preorder]. f_equal. generalize (@nil (list str * listing)).
  induction es as [|[[n nd]|] es IH]; intros acc; cbn [below]; auto.
Qed.

Lemma below_app : forall pt es acc, below pt es acc = below pt es [] ++ acc.
Proof.
  intros pt. induction es as [|[[n nd]|] es IH]; intros acc; cbn [below]; auto.
  rewrite IH, (IH (_ ++ [])), app_nil_r, app_assoc. reflexivity.
Qed.

Lemma in_below : forall pt es x, In x (below pt es []) <-> exists n nd, In (Some (n, nd)) es /\ In x (preorder (pt ++ [n]) nd).
Proof.
  intros pt es x. induction es as [|[[n nd]|] es IH]; cbn [below].
  - split; [intros []|intros (n & nd & [] & _)].
  - rewrite below_app, app_nil_r, in_app_iff, IH. split.
    + intros [(m & nd' & A & B)|H]; [exists m, nd'|exists n, nd]; cbn [In]; auto.
    + intros (m & nd' & [A|A] & B); [injection A as <- <-; auto|]. left. eauto.
  - rewrite IH. split; intros (m & nd' & A & B); exists m, nd'; cbn [In] in *; auto. destruct A; [discriminate|auto].
Qed.

Lemma in_preorder : forall nd es pt p ds, nd = Dir es ->
  (In (p, ds) (preorder pt nd) <-> exists q, p = pt ++ q /\ dir_at es q ds).
Proof.
  induction nd as [t|ds0 IH|] using node_rec'; intros es pt p ds E; [discriminate| |discriminate].
  injection E as ->. rewrite preorder_dir. cbn [In]. rewrite in_below. split.
  - intros [H|(n & nd & A & B)].
    + injection H as <- <-. exists []. rewrite app_nil_r. split; [reflexivity|constructor].
    + destruct nd as [|sub|]; [destruct B| |destruct B]. apply (IH _ _ A sub _ _ _ eq_refl) in B. destruct B as (q & -> & B).
      exists (n :: q). rewrite <- app_assoc. split; [reflexivity|]. apply dir_at_cons. eauto.
  - intros (q & -> & H). destruct q as [|n q].
    + apply dir_at_nil in H. subst. rewrite app_nil_r. auto.
    + right. apply dir_at_cons in H. destruct H as (sub & A & B). exists n, (Dir sub). split; auto.
      apply (IH _ _ A sub _ _ _ eq_refl). exists q. rewrite <- app_assoc. auto.
Qed.

Lemma names_in : forall ds n nd, In (Some (n, nd)) ds -> In n (names ds).
Proof. intros ds n nd H. unfold names. apply in_flat_map. exists (Some (n, nd)). cbn; auto. Qed.

Lemma nodup_app : forall A (a b : list A), NoDup a -> NoDup b -> (forall x, In x a -> ~ In x b) -> NoDup (a ++ b).
Proof.
  induction a as [|x a IH]; intros b Ha Hb H; cbn [app]; auto. inversion Ha; subst. constructor.
  - rewrite in_app_iff. intros [I|I]; [auto|]. apply (H x); cbn; auto.
  - apply IH; auto. intros y I. apply H. cbn; auto.
Qed.

Lemma preorder_paths : forall nd pt x, In x (map fst (preorder pt nd)) -> exists q, x = pt ++ q.
Proof.
  intros nd pt x H. apply in_map_iff in H. destruct H as ([p ds] & <- & H). destruct nd as [|es|]; [destruct H| |destruct H].
  apply (in_preorder (Dir es) es _ _ _ eq_refl) in H. destruct H as (q & -> & _). exists q. reflexivity.
Qed.

Lemma preorder_nodup : forall nd es pt, nd = Dir es -> distinct es -> NoDup (map fst (preorder pt nd)).
Proof.
  induction nd as [t|ds0 IH|] using node_rec'; intros es pt E D; [discriminate| |discriminate].
  injection E as ->. rewrite preorder_dir. cbn [map fst]. constructor.
  - intros H. apply in_map_iff in H. destruct H as (x & E & H). apply in_below in H. destruct H as (n & nd & _ & H).
    apply (in_map fst) in H. apply preorder_paths in H. destruct H as (q & H). rewrite E in H.
    apply (f_equal (@length _)) in H. rewrite !app_length in H. cbn in H. lia.
  - assert (N : NoDup (names es)) by (apply (D []); constructor).
    assert (S : forall n nd, In (Some (n, nd)) es -> NoDup (map fst (preorder (pt ++ [n]) nd))).
    { intros n nd I. destruct nd as [|sub|]; [constructor| |constructor]. apply (IH _ _ I sub _ eq_refl).
      exact (distinct_sub _ _ _ D I). }
    clear IH D. induction es as [|[[n nd]|] es IHes]; cbn [below map].
    + constructor.
    + rewrite below_app, map_app, app_nil_r. cbn [names flat_map app] in N. apply NoDup_cons_iff in N. destruct N as [N1 N2].
      apply nodup_app.
      * apply IHes; auto. intros; apply S; cbn; auto.
      * apply S. cbn; auto.
      * intros x A B. apply in_map_iff in A. destruct A as (y & <- & A). apply in_below in A.
        destruct A as (m & nd' & A & C). apply (in_map fst) in C. apply preorder_paths in C. apply preorder_paths in B.
        destruct B as (q & B), C as (q' & C). rewrite B in C. rewrite <- !app_assoc in C. apply app_inv_head in C.
        injection C as -> _. apply N1. eapply names_in; eauto.
    + apply IHes; auto. intros; apply S; cbn; auto.
Qed.

Lemma preorder_count : forall nd pt, length (preorder pt nd) = dir_count nd.
Proof.
  induction nd as [t|ds IH|] using node_rec'; intros pt; auto. cbn [preorder dir_count length]. f_equal.
  match goal with |- length (?g ds []) = ?h ds => assert (forall acc, length (g ds acc) = length acc + h ds) as H end.
  { induction ds as [|[[n nd]|] ds IHds]; intros acc; [cbn; lia| |].
    - rewrite IHds by (intros; eapply IH; cbn; eauto). rewrite app_length, (IH n nd) by (cbn; auto). lia.
    - apply IHds. intros; eapply IH; cbn; eauto. }
  rewrite H. reflexivity.
Qed.

Section Build.
  Variable F : Type.
  Variable parse : list str -> str -> res F.
  Notation parsed := (parsed F parse).
  Notation fsmap := (fsmap F).

  Definition keys (m : fsmap) : list (list str) := map fst m.
  Definition in_order (m : fsmap) : Prop := StronglySorted (fun a b => path_cmp (fst a) (fst b) = Lt) m.

  Lemma contains_spec : forall k (m : fsmap), bt_contains k m = true <-> In k (keys m).
  Proof.
    intros k. induction m as [|[k' v] m IH]; cbn [bt_contains keys map fst In]; [split; [discriminate|intros []]|].
    fold (keys m). rewrite <- IH. pose proof (path_cmp_eq k k') as K. destruct (path_cmp k k').
    - split; auto. intros _. left. symmetry. apply K. reflexivity.
    - split; auto. intros [H|H]; auto. exfalso. assert (Lt = Eq) by (apply K; auto). discriminate.
    - split; auto. intros [H|H]; auto. exfalso. assert (Gt = Eq) by (apply K; auto). discriminate.
  Qed.

  Lemma insert_perm : forall k v (m : fsmap), ~ In k (keys m) -> exists m', bt_insert k v m = (None, m') /\ Permutation ((k, v) :: m) m'.
  Proof.
    intros k v. induction m as [|[k' v'] m IH]; intros H; cbn [bt_insert].
    - eexists. split; reflexivity.
    - cbn [keys map fst In] in H. pose proof (path_cmp_eq k k') as K. destruct (path_cmp k k').
      + exfalso. apply H. left. symmetry. apply K. reflexivity.
      + eexists. split; reflexivity.
      + destruct IH as (m' & E & P); [intros I; apply H; right; exact I|]. rewrite E. eexists. split; [reflexivity|].
        rewrite perm_swap. constructor. exact P.
  Qed.

  Lemma insert_order : forall k v (m m' : fsmap), in_order m -> bt_insert k v m = (None, m') -> in_order m'.
  Proof.
    intros k v. induction m as [|[k' v'] m IH]; intros m' S E; cbn [bt_insert] in E.
    - injection E as <-. repeat constructor.
    - apply StronglySorted_inv in S. destruct S as [S Hd]. destruct (path_cmp k k') eqn:C.
      + discriminate.
      + injection E as <-. constructor; [constructor; auto|]. constructor; [exact C|].
        rewrite Forall_forall in *. intros x Ix. eapply path_lt_trans; [exact C|]. apply (Hd x Ix).
      + destruct (bt_insert k v m) as [o m''] eqn:E'. injection E as -> <-.
        constructor; [exact (IH _ S eq_refl)|]. rewrite Forall_forall in *. intros x Ix.
        assert (NI : ~ In k (keys m)).
        { intros I. clear - I E' S. revert m'' E'. induction m as [|[a b] m IH]; [destruct I|]. intros m'' E'.
          apply StronglySorted_inv in S. destruct S as [S Hd]. cbn [bt_insert] in E'. cbn [keys map fst In] in I.
          destruct (path_cmp k a) eqn:C; [discriminate| |].
          - destruct I as [I|I]; [apply eq_sym, path_cmp_eq in I; congruence|].
            apply in_map_iff in I. destruct I as (y & <- & I). rewrite Forall_forall in Hd. specialize (Hd y I). cbn [fst] in Hd.
            rewrite path_cmp_antisym, Hd in C. discriminate.
          - destruct (bt_insert k v m) as [o m'] eqn:E. injection E' as -> <-.
            destruct I as [I|I]; [apply eq_sym, path_cmp_eq in I; congruence|]. eapply IH; eauto. }
        destruct (insert_perm k v m NI) as (m3 & E3 & P). rewrite E' in E3. injection E3 as <-.
        apply (Permutation_in _ (Permutation_sym P)) in Ix. destruct Ix as [<-|Ix]; [|auto].
        cbn [fst]. rewrite path_cmp_antisym, C. reflexivity.
  Qed.

  Lemma insert_new_ok : forall k v (m : fsmap), in_order m -> ~ In k (keys m) ->
    exists m', insert_new k v m = Ok m' /\ in_order m' /\ Permutation ((k, v) :: m) m'.
  Proof.
    intros k v m S N. destruct (insert_perm k v m N) as (m' & E & P). exists m'. unfold insert_new. rewrite E.
    split; [reflexivity|]. split; auto. eapply insert_order; eauto.
  Qed.

  (** ** The files of one directory *)
  Fixpoint files (pt : list str) (es : listing) : res (list F) :=
    match es with
    | [] => Ok []
    | None :: _ => Err 0
    | Some (n, File t) :: es =>
        if is_ogma n then let? f := parse_file parse (pt ++ [n]) t in let? fs := files pt es in Ok (f :: fs) else files pt es
    | _ :: es => files pt es
    end.
  Fixpoint subs (pt : list str) (es : listing) (dirs : list (list str * listing)) : list (list str * listing) :=
    match es with
    | [] => dirs
    | Some (n, Dir sub) :: es => subs pt es ((pt ++ [n], sub) :: dirs)
    | _ :: es => subs pt es dirs
    end.

  Lemma dir_items_spec : forall pt es v dirs,
    dir_items parse pt es v dirs = let? fs := files pt es in Ok (v ++ fs, subs pt es dirs).
  Proof.
    intros pt. induction es as [|[[n nd]|] es IH]; intros v dirs; cbn [dir_items files subs rbind].
    - rewrite app_nil_r. reflexivity.
    - destruct nd as [t|sub|]; destruct (is_ogma n); cbn [rbind]; auto.
      destruct (parse_file parse (pt ++ [n]) t); cbn [rbind]; auto. rewrite IH. destruct (files pt es); cbn [rbind]; auto.
      rewrite <- app_assoc. reflexivity.
    - reflexivity.
  Qed.

  Definition flat (dirs : list (list str * listing)) : list (list str * listing) :=
    flat_map (fun d => preorder (fst d) (Dir (snd d))) dirs.

  Lemma flat_subs : forall pt es dirs, flat (subs pt es dirs) = below pt es (flat dirs).
  Proof.
    intros pt. induction es as [|[[n nd]|] es IH]; intros dirs; cbn [subs below]; auto.
    destruct nd as [t|sub|]; rewrite IH; auto.
  Qed.

  (** ** The walk as a fold *)
  Fixpoint visit (ds : list (list str * listing)) (m : fsmap) : res fsmap :=
    match ds with
    | [] => Ok m
    | (pt, items) :: ds =>
        if bt_contains pt m then Err 1 else
        let? v := files pt items in
        let? m := match v with [] => Ok m | _ => insert_new pt v m end in
        visit ds m
    end.

  Lemma walk_visit : forall fuel dirs m, length (flat dirs) < fuel -> walk parse fuel m dirs = visit (flat dirs) m.
  Proof.
    induction fuel as [|fuel IH]; intros dirs m L; [lia|]. cbn [walk]. destruct dirs as [|[pt es] dirs]; [reflexivity|].
    assert (FE : flat ((pt, es) :: dirs) = (pt, es) :: flat (subs pt es dirs)).
    { rewrite flat_subs. unfold flat at 1. cbn [flat_map fst snd]. rewrite preorder_dir. cbn [app]. f_equal.
      symmetry. apply below_app. }
    rewrite FE in *. cbn [length] in L. cbn [visit]. destruct (bt_contains pt m); [reflexivity|].
    rewrite dir_items_spec. destruct (files pt es) as [fs| |]; cbn [rbind]; auto. cbn [app].
    destruct fs as [|f fs]; cbn [rbind].
    - apply IH. lia.
    - destruct (insert_new pt (f :: fs) m); cbn [rbind]; auto. apply IH. lia.
  Qed.

  Fixpoint root_files (es : listing) (m : fsmap) : res fsmap :=
    match es with
    | [] => Ok m
    | None :: _ => Err 0
    | Some (n, File t) :: es =>
        if is_ogma n
        then let? f := parse_file parse [n] t in let? m := insert_new [stem n] [f] m in root_files es m
        else root_files es m
    | _ :: es => root_files es m
    end.

  Lemma root_items_spec : forall es m dirs,
    root_items parse es m dirs = let? m := root_files es m in Ok (m, subs [] es dirs).
  Proof.
    induction es as [|[[n nd]|] es IH]; intros m dirs; cbn [root_items root_files subs rbind app]; auto.
    destruct nd as [t|sub|]; destruct (is_ogma n); cbn [rbind]; auto.
    destruct (parse_file parse [n] t); cbn [rbind]; auto. destruct (insert_new [stem n] [a] m); cbn [rbind]; auto.
  Qed.

  Lemma build_spec : forall es, build_fs_map parse es = let? m := root_files es [] in visit (below [] es []) m.
  Proof.
    intros es. unfold build_fs_map. rewrite root_items_spec. destruct (root_files es []); cbn [rbind fst snd]; auto.
    rewrite walk_visit; rewrite flat_subs; [reflexivity|].
    rewrite <- (preorder_count (Dir es) []), preorder_dir. cbn. lia.
  Qed.

  (** ** Outcome for the files of a directory *)
  Definition fails_in (p : list str) (ds : listing) (e : nat) : Prop := exists n t, In (Some (n, File t)) ds /\
    ogma_name n /\ match t with Some s => parse (p ++ [n]) s = Err e | None => e = 2 end.
  Definition panics_in (p : list str) (ds : listing) : Prop := exists n t, In (Some (n, File (Some t))) ds /\ parse (p ++ [n]) t = Panic.

  Lemma parse_file_cases : forall p n t, match parse_file parse (p ++ [n]) t with
    | Ok f => parsed p (n, t) f
    | Err e => match t with Some s => parse (p ++ [n]) s = Err e | None => e = 2 end
    | Panic => exists s, t = Some s /\ parse (p ++ [n]) s = Panic
    end.
  Proof.
    intros p n [t|]; cbn [parse_file]; [|reflexivity]. destruct (parse (p ++ [n]) t) eqn:E; eauto. exists t. auto.
  Qed.

  Lemma files_cases : forall p ds, match files p ds with
    | Ok v => ~ In None ds /\ exists fs, ogma_files ds fs /\ Forall2 (parsed p) fs v
    | Err e => (e = 0 /\ In None ds) \/ fails_in p ds e
    | Panic => panics_in p ds
    end.
  Proof.
    intros p. induction ds as [|[[n nd]|] ds IH]; cbn [files].
    - split; [intros []|]. exists []. split; constructor.
    - assert (Skip : (forall m t, Some (n, nd) = Some (m, File t) -> ~ ogma_name m) ->
        match files p ds with
        | Ok v => ~ In None (Some (n, nd) :: ds) /\ exists fs, ogma_files (Some (n, nd) :: ds) fs /\ Forall2 (parsed p) fs v
        | Err e => (e = 0 /\ In None (Some (n, nd) :: ds)) \/ fails_in p (Some (n, nd) :: ds) e
        | Panic => panics_in p (Some (n, nd) :: ds)
        end).
      { intros H. destruct (files p ds) as [v|e|].
        - destruct IH as (A & fs & B & C). split; [intros [I|I]; [discriminate|auto]|]. exists fs. split; auto. constructor; auto.
        - destruct IH as [[A B]|(m & t & A & B)]; [left; cbn; auto|]. right. exists m, t. cbn; auto.
        - destruct IH as (m & t & A & B). exists m, t. cbn; auto. }
      destruct nd as [t|sub|]; try (apply Skip; discriminate).
      destruct (is_ogma n) eqn:O.
      + apply is_ogma_spec in O. pose proof (parse_file_cases p n t) as C.
        destruct (parse_file parse (p ++ [n]) t) as [f|e|]; cbn [rbind].
        * destruct (files p ds) as [v|e|]; cbn [rbind].
          -- destruct IH as (A & fs & B & D). split; [intros [I|I]; [discriminate|auto]|]. exists ((n, t) :: fs).
             split; constructor; auto.
          -- destruct IH as [[A B]|(m & s & A & B)]; [left; cbn; auto|]. right. exists m, s. cbn; auto.
          -- destruct IH as (m & s & A & B). exists m, s. cbn; auto.
        * right. exists n, t. cbn; auto.
        * destruct C as (s & -> & C). exists n, s. cbn; auto.
      + apply Skip. intros m s E. injection E as <- _. intros Q. apply is_ogma_spec in Q. congruence.
    - left. cbn; auto.
  Qed.

  Lemma ogma_files_det : forall ds fs fs', ogma_files ds fs -> ogma_files ds fs' -> fs = fs'.
  Proof.
    intros ds fs fs' H. revert fs'. induction H as [|n t ds fs O H IH|e ds fs O H IH]; intros fs' H'; inversion H'; subst; auto.
    - f_equal; auto.
    - exfalso. eapply H2; eauto.
    - exfalso. eapply O; eauto.
  Qed.

  Lemma ogma_files_in : forall ds fs, ogma_files ds fs -> forall n t, In (n, t) fs <-> In (Some (n, File t)) ds /\ ogma_name n.
  Proof.
    intros ds fs H n t. induction H as [|m s ds fs O H IH|e ds fs O H IH]; cbn [In].
    - tauto.
    - rewrite IH. split.
      + intros [E|[A B]]; auto. injection E as -> ->. auto.
      + intros [[E|A] B]; auto. injection E as -> ->. auto.
    - rewrite IH. split; [intros [A B]; auto|]. intros [[E|A] B]; auto. exfalso. subst e. exact (O _ _ eq_refl B).
  Qed.

  (** ** The fold over directories *)
  Lemma in_keys : forall k v (m : fsmap), In (k, v) m -> In k (keys m).
  Proof. intros k v m H. apply (in_map fst) in H. exact H. Qed.

  Lemma visit_cases : forall ds m, NoDup (map fst ds) -> in_order m ->
    match visit ds m with
    | Ok m' => in_order m' /\
        (forall p es, In (p, es) ds -> ~ In p (keys m) /\ exists v, files p es = Ok v) /\
        (forall k v, In (k, v) m' <-> In (k, v) m \/ exists es, In (k, es) ds /\ files k es = Ok v /\ v <> [])
    | Err e => (e = 1 /\ exists p es, In (p, es) ds /\ In p (keys m)) \/ exists p es, In (p, es) ds /\ files p es = Err e
    | Panic => exists p es, In (p, es) ds /\ files p es = Panic
    end.
  Proof.
    induction ds as [|[pt items] ds IH]; intros m N S; cbn [visit].
    - split; auto. split; [intros p es []|]. intros k v. split; auto. intros [H|(es & [] & _)]; auto.
    - cbn [map fst] in N. apply NoDup_cons_iff in N. destruct N as [N1 N2].
      pose proof (contains_spec pt m) as C. destruct (bt_contains pt m).
      + left. split; auto. exists pt, items. split; [cbn; auto|]. apply C. reflexivity.
      + assert (NI : ~ In pt (keys m)) by (intros I; apply C in I; discriminate).
        destruct (files pt items) as [v|e|] eqn:E; cbn [rbind].
        2: { right. exists pt, items. cbn; auto. }
        2: { exists pt, items. cbn; auto. }
        assert (exists m1, match v with [] => Ok m | _ => insert_new pt v m end = Ok m1 /\ in_order m1 /\
          forall k w, In (k, w) m1 <-> In (k, w) m \/ (k = pt /\ w = v /\ v <> [])) as (m1 & E1 & S1 & I1).
        { destruct v as [|f v].
          - exists m. split; auto. split; auto. intros k w. split; auto. intros [H|(_ & _ & H)]; auto. congruence.
          - destruct (insert_new_ok pt (f :: v) m S NI) as (m1 & A & B & P). exists m1. split; auto. split; auto.
            intros k w. split.
            + intros H. apply (Permutation_in _ (Permutation_sym P)) in H. destruct H as [H|H]; auto.
              injection H as <- <-. right. repeat split; auto. discriminate.
            + intros [H|(-> & -> & _)]; apply (Permutation_in _ P); cbn; auto. }
        rewrite E1. cbn [rbind]. clear E1. specialize (IH m1 N2 S1).
        assert (K1 : forall k, In k (keys m1) -> In k (keys m) \/ k = pt).
        { intros k H. apply in_map_iff in H. destruct H as ([k' w] & <- & H). apply I1 in H. cbn [fst].
          destruct H as [H|(-> & _)]; auto. left. eapply in_keys; eauto. }
        assert (Dn : forall p es, In (p, es) ds -> p <> pt).
        { intros p es H ->. apply N1. apply (in_map fst) in H. exact H. }
        destruct (visit ds m1) as [m'|e|].
        * destruct IH as (A & B & D). split; auto. split.
          -- intros p es [H|H]; [injection H as <- <-; eauto|]. destruct (B p es H) as [B1 B2]. split; auto.
             intros I. apply B1. apply in_map_iff in I. destruct I as ([k w] & <- & I).
             apply (in_keys _ w). apply I1. auto.
          -- intros k w. rewrite D, I1. split.
             ++ intros [[H|(-> & -> & H)]|(es & H1 & H2)]; auto.
                ** right. exists items. cbn; auto.
                ** right. exists es. cbn; auto.
             ++ intros [H|(es & [H1|H1] & H2 & H3)]; auto.
                ** injection H1 as <- <-. left. right. rewrite E in H2. injection H2 as <-. auto.
                ** right. eauto.
        * destruct IH as [(-> & p & es & A & B)|(p & es & A & B)].
          -- left. split; auto. exists p, es. split; [cbn; auto|]. apply K1 in B. destruct B as [B|B]; auto.
             exfalso. exact (Dn _ _ A B).
          -- right. exists p, es. cbn; auto.
        * destruct IH as (p & es & A & B). exists p, es. cbn; auto.
  Qed.

  (** ** The files at the root *)
  Lemma root_cases : forall es m, NoDup (names es) -> in_order m ->
    (forall n, In n (names es) -> is_ogma n = true -> ~ In [stem n] (keys m)) ->
    match root_files es m with
    | Ok m' => in_order m' /\ ~ In None es /\
        (forall s t, s <> [] -> In (Some (s ++ lit ".ogma", File t)) es -> exists v, parsed [] (s ++ lit ".ogma", t) v) /\
        (forall k v, In (k, v) m' <-> In (k, v) m \/
           exists s t f, s <> [] /\ In (Some (s ++ lit ".ogma", File t)) es /\ parsed [] (s ++ lit ".ogma", t) f /\ k = [s] /\ v = [f])
    | Err e => (e = 0 /\ In None es) \/ fails_in [] es e
    | Panic => panics_in [] es
    end.
  Proof.
    induction es as [|[[n nd]|] es IH]; intros m N S D; cbn [root_files].
    - split; auto. split; [intros []|]. split; [intros s t _ []|]. intros k v. split; auto.
      intros [H|(s & t & f & _ & [] & _)]; auto.
    - cbn [names flat_map app] in N, D. apply NoDup_cons_iff in N. destruct N as [N1 N2].
      assert (Skip : (forall m t, Some (n, nd) = Some (m, File t) -> ~ ogma_name m) ->
        match root_files es m with
        | Ok m' => in_order m' /\ ~ In None (Some (n, nd) :: es) /\
          (forall s t, s <> [] -> In (Some (s ++ lit ".ogma", File t)) (Some (n, nd) :: es) -> exists v, parsed [] (s ++ lit ".ogma", t) v) /\
          (forall k v, In (k, v) m' <-> In (k, v) m \/
           exists s t f, s <> [] /\ In (Some (s ++ lit ".ogma", File t)) (Some (n, nd) :: es) /\
             parsed [] (s ++ lit ".ogma", t) f /\ k = [s] /\ v = [f])
        | Err e => (e = 0 /\ In None (Some (n, nd) :: es)) \/ fails_in [] (Some (n, nd) :: es) e
        | Panic => panics_in [] (Some (n, nd) :: es)
        end).
      { intros H. specialize (IH m N2 S (fun x I => D x (or_intror I))). destruct (root_files es m) as [m'|e|].
        - destruct IH as (A & B & C & E). split; auto. split; [intros [I|I]; [discriminate|auto]|]. split.
          + intros s t Hs [I|I]; [|eauto]. exfalso. apply (H _ _ I). exists s; auto.
          + intros k v. rewrite E. split; (intros [I|(s & t & f & I1 & I2 & I3)]; [auto|]); right; exists s, t, f;
              (split; [auto|]); (split; [|auto]); [cbn; auto|].
            destruct I2 as [I2|I2]; auto. exfalso. apply (H _ _ I2). exists s; auto.
        - destruct IH as [[A B]|(x & t & A & B)]; [left; cbn; auto|]. right. exists x, t. cbn; auto.
        - destruct IH as (x & t & A & B). exists x, t. cbn; auto. }
      destruct nd as [t|sub|]; try (apply Skip; discriminate).
      destruct (is_ogma n) eqn:O.
      + pose proof (proj1 (is_ogma_spec n) O) as (s0 & Hs0 & En). pose proof (parse_file_cases [] n t) as C. cbn [app] in C.
        destruct (parse_file parse [n] t) as [f|e|]; cbn [rbind].
        * assert (Est : stem n = s0) by (subst n; apply stem_ogma; auto).
          destruct (insert_new_ok [stem n] [f] m S (D n (or_introl eq_refl) O)) as (m1 & E1 & S1 & P). rewrite E1. cbn [rbind].
          assert (D1 : forall x, In x (names es) -> is_ogma x = true -> ~ In [stem x] (keys m1)).
          { intros x Ix Ox I. apply (Permutation_in _ (Permutation_sym (Permutation_map fst P))) in I.
            cbn [map fst] in I. destruct I as [I|I]; [|exact (D x (or_intror Ix) Ox I)].
            apply is_ogma_spec in Ox. destruct Ox as (s1 & Hs1 & ->). rewrite stem_ogma in I by auto.
            injection I as I. apply N1. assert (s0 = s1) as -> by congruence. rewrite En. exact Ix. }
          specialize (IH m1 N2 S1 D1). destruct (root_files es m1) as [m'|e|].
          -- destruct IH as (A & B & G & E). split; auto. split; [intros [I|I]; [discriminate|auto]|]. split.
             ++ intros s u Hs [I|I]; [|eauto]. assert (n = s ++ lit ".ogma" /\ t = u) as [I' <-] by (split; congruence). exists f. rewrite <- I'. exact C.
             ++ intros k v. rewrite E. split.
                ** intros [I|(s & u & g & I1 & I2 & I3)].
                   --- apply (Permutation_in _ (Permutation_sym P)) in I. destruct I as [I|I]; auto.
                       injection I as <- <-. right. exists s0, t, f. rewrite <- En. cbn [In].
                       split; [auto|]. split; [auto|]. split; [auto|]. rewrite Est. auto.
                   --- right. exists s, u, g. cbn [In]; auto.
                ** intros [I|(s & u & g & I1 & [I2|I2] & I3 & -> & ->)].
                   --- left. apply (Permutation_in _ P). cbn; auto.
                   --- left. apply (Permutation_in _ P). left.
                       assert (n = s ++ lit ".ogma" /\ t = u) as [I2' <-] by (split; congruence). clear I2. rename I2' into I2.
                       rewrite I2 in En. apply app_inv_tail in En. subst s0.
                       destruct C as (c & Cs & C), I3 as (c' & Cs' & I3). cbn [fst snd] in *. rewrite <- I2 in I3.
                       assert (f = g) by congruence. congruence.
                   --- right. exists s, u, g. auto.
          -- destruct IH as [[A B]|(x & u & A & B)]; [left; cbn; auto|]. right. exists x, u. cbn; auto.
          -- destruct IH as (x & u & A & B). exists x, u. cbn; auto.
        * right. exists n, t. split; [cbn; auto|]. split; [exists s0; auto|exact C].
        * destruct C as (s & -> & C). exists n, s. cbn; auto.
      + apply Skip. intros x s E. injection E as <- _. intros Q. apply is_ogma_spec in Q. congruence.
    - left. cbn; auto.
  Qed.

  (** ** Everything together *)
  Lemma in_below_root : forall es p ds, In (p, ds) (below [] es []) <-> p <> [] /\ dir_at es p ds.
  Proof.
    intros es p ds. rewrite in_below. split.
    - intros (n & nd & A & B). destruct nd as [|sub|]; [destruct B| |destruct B].
      apply (in_preorder (Dir sub) sub _ _ _ eq_refl) in B. destruct B as (q & -> & B). split; [discriminate|].
      cbn [app]. apply dir_at_cons. eauto.
    - intros [H1 H2]. destruct p as [|n q]; [congruence|]. apply dir_at_cons in H2. destruct H2 as (sub & A & B).
      exists n, (Dir sub). split; auto. apply (in_preorder (Dir sub) sub _ _ _ eq_refl). exists q. auto.
  Qed.

  Lemma below_nodup : forall es, distinct es -> NoDup (map fst (below [] es [])).
  Proof.
    intros es D. pose proof (preorder_nodup (Dir es) es [] eq_refl D) as H. rewrite preorder_dir in H.
    cbn [map] in H. apply NoDup_cons_iff in H. apply H.
  Qed.

  Lemma files_ok : forall p ds v, files p ds = Ok v -> v <> [] -> exists fs, ogma_files ds fs /\ fs <> [] /\ Forall2 (parsed p) fs v.
  Proof.
    intros p ds v E N. pose proof (files_cases p ds) as C. rewrite E in C. destruct C as (_ & fs & A & B). exists fs.
    split; auto. split; auto. intros ->. inversion B. congruence.
  Qed.

  Lemma parsed_fun : forall p x a b, parsed p x a -> parsed p x b -> a = b.
  Proof. intros p x a b (t & A & B) (t' & A' & B'). congruence. Qed.
  Lemma parsed_fun_list : forall p xs a b, Forall2 (parsed p) xs a -> Forall2 (parsed p) xs b -> a = b.
  Proof.
    intros p xs a b H. revert b. induction H; intros b H'; inversion H'; subst; auto. f_equal; eauto using parsed_fun.
  Qed.

  Theorem build_cases : forall es, distinct es ->
    match build_fs_map parse es with
    | Ok m => in_order m /\ ~ unreadable es /\ ~ clash es /\ (forall e, ~ file_fails F parse es e) /\
              forall k v, In (k, v) m <-> partition_at F parse es k v
    | Err e => (e = 0 /\ unreadable es) \/ (e = 1 /\ clash es) \/ file_fails F parse es e
    | Panic => exists p ds n t, dir_at es p ds /\ In (Some (n, File (Some t))) ds /\ parse (p ++ [n]) t = Panic
    end.
  Proof.
    intros es D. rewrite build_spec.
    assert (N : NoDup (names es)) by (apply (D []); constructor).
    assert (S0 : in_order []) by constructor.
    pose proof (root_cases es [] N S0 (fun n _ _ I => I)) as R.
    destruct (root_files es []) as [m0|e|]; cbn [rbind].
    - destruct R as (S & R1 & R2 & R3).
      pose proof (visit_cases (below [] es []) m0 (below_nodup es D) S) as V.
      assert (K0 : forall p, In p (keys m0) -> exists s t, s <> [] /\ p = [s] /\ In (Some (s ++ lit ".ogma", File t)) es).
      { intros p H. apply in_map_iff in H. destruct H as ([k v] & <- & H). apply R3 in H.
        destruct H as [[]|(s & t & f & A & B & _ & -> & _)]. cbn [fst]. eauto. }
      destruct (visit (below [] es []) m0) as [m|e|].
      + destruct V as (Sm & V1 & V2). split; auto. split; [|split; [|split]].
        * intros (p & ds & A & B). destruct p as [|n p].
          -- apply dir_at_nil in A. subst. auto.
          -- assert (I : In (n :: p, ds) (below [] es [])) by (apply in_below_root; split; [discriminate|auto]).
             destruct (V1 _ _ I) as (_ & v & E). pose proof (files_cases (n :: p) ds) as C. rewrite E in C. apply C. exact B.
        * intros (s & t & sub & Hs & A & B).
          assert (I : In ([s], sub) (below [] es [])).
          { apply in_below_root. split; [discriminate|]. apply dir_at_cons. exists sub. split; auto. constructor. }
          destruct (V1 _ _ I) as (Q & _). apply Q. destruct (R2 s t Hs A) as (f & Pf). apply (in_keys _ [f]). apply R3.
          right. exists s, t, f. auto.
        * intros e (p & ds & n & t & A & B & O & C). destruct p as [|x p].
          -- apply dir_at_nil in A. subst. destruct O as (s & Hs & ->). destruct (R2 s t Hs B) as (f & u & Eu & Pf).
             cbn [fst snd app] in *. subst t. rewrite Pf in C. discriminate.
          -- assert (I : In (x :: p, ds) (below [] es [])) by (apply in_below_root; split; [discriminate|auto]).
             destruct (V1 _ _ I) as (_ & v & E). pose proof (files_cases (x :: p) ds) as Q. rewrite E in Q.
             destruct Q as (_ & fs & Q1 & Q2). assert (If : In (n, t) fs) by (apply (ogma_files_in _ _ Q1); auto).
             clear - Q2 If C. induction Q2 as [|a b fs v H Q IH]; [destruct If|]. destruct If as [->|If]; auto.
             destruct H as (u & Eu & Pf). cbn [fst snd app] in *. subst t. rewrite Pf in C. discriminate.
        * intros k v. rewrite V2, R3. split.
          -- intros [[[]|(s & t & f & A & B & C & -> & ->)]|(ds & A & B & C)].
             ++ eapply part_file; eauto.
             ++ apply in_below_root in A. destruct A as [A1 A2]. destruct (files_ok _ _ _ B C) as (fs & F1 & F2 & F3).
                eapply part_dir; eauto.
          -- intros H. inversion H as [s t w Hs I P Ek Ev|p ds fs vs Hp Da O Hf P Ek Ev]; subst.
             ++ left. right. exists s, t, w. auto.
             ++ right. exists ds. assert (I : In (k, ds) (below [] es [])) by (apply in_below_root; auto).
                split; auto. destruct (V1 _ _ I) as (_ & w & E). pose proof (files_cases k ds) as Q. rewrite E in Q.
                destruct Q as (_ & fs' & Q1 & Q2). rewrite (ogma_files_det _ _ _ Q1 O) in Q2.
                rewrite (parsed_fun_list _ _ _ _ P Q2). split; auto. intros ->. inversion Q2. congruence.
      + destruct V as [(-> & p & ds & A & B)|(p & ds & A & B)].
        * right. left. split; auto. destruct (K0 p B) as (s & t & Hs & -> & I). apply in_below_root in A. destruct A as [_ A].
          apply dir_at_cons in A. destruct A as (sub & A & _). exists s, t, sub. auto.
        * apply in_below_root in A. destruct A as [_ A]. pose proof (files_cases p ds) as C. rewrite B in C.
          destruct C as [[-> C]|(n & t & C)].
          -- left. split; auto. exists p, ds. auto.
          -- right. right. exists p, ds, n, t. tauto.
      + destruct V as (p & ds & A & B). apply in_below_root in A. destruct A as [_ A].
        pose proof (files_cases p ds) as C. rewrite B in C. destruct C as (n & t & C1 & C2). exists p, ds, n, t. auto.
    - destruct R as [[-> R]|(n & t & R)].
      + left. split; auto. exists [], es. split; auto. constructor.
      + right. right. exists [], es, n, t. split; [constructor|tauto].
    - destruct R as (n & t & R1 & R2). exists [], es, n, t. split; [constructor|]. auto.
  Qed.
End Build.
