From Coq Require Import String List NArith Arith Lia Bool Sorted Permutation.
From Verif Require Import Model.Base Model.TableCrate Model.Parts Spec.PartsSpec Proofs.PartSetProofs Proofs.PartsTreeProofs.
Import ListNotations.

Definition imp_entry (x : placed) : list (nat * list import * list nat) :=
  match pl_ids x, file_imports (pl_file x) with [], _ | _, [] => [] | _, im => [(pl_boundary x, im, pl_ids x)] end.
Definition done_of (al : list placed) : list (list str * pfile) := map (fun x => (pl_path x, pl_file x)) al.

Record p1 (ps0 : parts) (keys : list (list str)) (al : list placed) (s : ext_state) : Prop := {
  p_tree : tree (e_parts s);
  p_ext : ext ps0 (e_parts s);
  p_paths : forall r, (exists b, at_path (e_parts s) r b) <-> (exists b, at_path ps0 r b) \/ exists k v, In k keys /\ k = r ++ v;
  p_nodup : NoDup (concat (map pl_ids al));
  p_new : forall i, In i (concat (map pl_ids al)) <-> length ps0 <= i < length (e_parts s) /\ ~ is_kind (e_parts s) i KBoundary;
  p_items : forall x, In x al -> placed_ok (e_parts s) x;
  p_exports : forall b pat, (exists xs, In (b, xs) (e_exports s) /\ In pat xs) <->
                            exists x, In x al /\ pl_boundary x = b /\ In pat (file_exports (pl_file x));
  p_exb : forall b xs, In (b, xs) (e_exports s) -> is_kind (e_parts s) b KBoundary;
  p_imports : e_imports s = flat_map imp_entry al
}.

Lemma p1_start : forall ps, tree ps -> p1 ps [] [] (Ext ps [] []).
Proof.
  intros ps T. constructor; cbn; auto.
  - apply ext_refl.
  - intros r. split; auto. intros [H|(k & v & [] & _)]; auto.
  - constructor.
  - intros i. split; [intros []|lia].
  - intros x [].
  - intros b pat. split; [intros (xs & [] & _)|intros (x & [] & _)].
  - intros b xs [].
Qed.

Lemma placed_grows : forall ps ps' x, grows ps ps' -> placed_ok ps x -> placed_ok ps' x.
Proof. intros ps ps' x G (A & B). split; [eapply grows_path; eauto|]. eapply Forall2_mono; [|exact B]. intros; auto. Qed.

Lemma extend_entry_in : forall b xs m b' ys, In (b', ys) (extend_entry b xs m) ->
  (exists zs, b' = b /\ In (b, zs) m /\ ys = zs ++ xs) \/ (b' = b /\ ys = xs) \/ In (b', ys) m.
Proof.
  intros b xs m. induction m as [|[c zs] m IH]; intros b' ys H; cbn in H.
  - destruct H as [E|[]]. injection E as <- <-. auto.
  - destruct (Nat.eqb_spec b c) as [->|N].
    + destruct H as [E|H]; [|right; right; now right]. injection E as <- <-. left. exists zs. split; auto. split; auto. now left.
    + destruct H as [E|H]; [right; right; now left|]. destruct (IH _ _ H) as [(us & -> & U & ->)|[(-> & ->)|H']].
      * left. exists us. split; auto. split; auto. now right.
      * auto.
      * right. right. now right.
Qed.
Lemma extend_entry_pats : forall b xs m b' pat, (exists ys, In (b', ys) (extend_entry b xs m) /\ In pat ys) <->
  (exists ys, In (b', ys) m /\ In pat ys) \/ (b' = b /\ In pat xs).
Proof.
  intros b xs m b' pat. split.
  - intros (ys & H & P). apply extend_entry_in in H as [(zs & -> & Z & ->)|[(-> & ->)|H]]; eauto.
    apply in_app_or in P as [P|P]; eauto.
  - induction m as [|[c zs] m IH]; intros [(ys & H & P)|(-> & P)]; cbn.
    + destruct H.
    + exists xs. cbn. auto.
    + destruct (Nat.eqb_spec b c) as [->|N].
      * destruct H as [E|H]; [injection E as <- <-; exists (zs ++ xs); split; [now left|apply in_or_app; auto]|]. exists ys. split; auto. now right.
      * destruct H as [E|H]; [exists ys; split; [now left|auto]|]. destruct IH as (us & U & V); [left; eauto|]. exists us. split; auto. now right.
    + destruct (Nat.eqb_spec b c) as [->|N]; [exists (zs ++ xs); split; [now left|apply in_or_app; auto]|].
      destruct IH as (us & U & V); [right; auto|]. exists us. split; auto. now right.
Qed.

Lemma in_concat_ids : forall (al : list placed) i, In i (concat (map pl_ids al)) <-> exists x, In x al /\ In i (pl_ids x).
Proof.
  intros al i. rewrite in_concat. split.
  - intros (l & H & I). apply in_map_iff in H as (x & <- & H). eauto.
  - intros (x & H & I). exists (pl_ids x). split; auto. apply in_map; auto.
Qed.
Lemma Forall2_in_l : forall A B (P : A -> B -> Prop) l m x, Forall2 P l m -> In x l -> exists y, In y m /\ P x y.
Proof. intros A B P l m x H. induction H; [intros []|]; intros [->|I]; [exists y; split; auto; now left|]. destruct (IHForall2 I) as (z & Z & Q). exists z. split; auto. now right. Qed.
Lemma Forall2_in_r : forall A B (P : A -> B -> Prop) l m y, Forall2 P l m -> In y m -> exists x, In x l /\ P x y.
Proof. intros A B P l m z H. induction H; [intros []|]; intros [->|I]; [exists x; split; auto; now left|]. destruct (IHForall2 I) as (w & Z & Q). exists w. split; auto. now right. Qed.

(** Types of a partition. *)
Lemma p1_types : forall ps0 keys al s k b t, tree ps0 -> p1 ps0 keys al s -> at_path (e_parts s) k b ->
  ((exists j, node_is (e_parts s) j KType (Some b) t) <->
   (exists b0 j, at_path ps0 k b0 /\ node_is ps0 j KType (Some b0) t) \/ exists f, In (k, f) (done_of al) /\ In t (f_types f)).
Proof.
  intros ps0 keys al s k b t T0 P HB. assert (T := p_tree _ _ _ _ P). destruct (p_ext _ _ _ _ P) as (L & G & X). split.
  - intros (j & H). destruct (tree_parent _ _ _ _ _ T H) as [PJ _]. destruct (le_lt_dec (length ps0) j) as [HL|HL].
    + right. assert (Hj : In j (concat (map pl_ids al))).
      { apply (p_new _ _ _ _ P). split; [split; auto; eapply node_lt; eauto|]. intros (p & s' & K). destruct (node_fun _ _ _ _ _ _ _ _ H K). discriminate. }
      apply in_concat_ids in Hj as (x & Hx & Hj). destruct (p_items _ _ _ _ P x Hx) as (A & F).
      destruct (Forall2_in_l _ _ _ _ _ _ F Hj) as ([k' n] & Hn & N). cbn in N. destruct (node_fun _ _ _ _ _ _ _ _ H N) as (<- & E & <-). injection E as E.
      rewrite <- E in A. assert (EK := at_path_inj _ _ _ T HB _ A). exists (pl_file x). split.
      * apply in_map_iff. exists x. rewrite EK. auto.
      * unfold file_items in Hn. apply in_app_or in Hn as [Hn|Hn]; apply in_map_iff in Hn as (u & U & Hn); injection U; intros; congruence.
    + left. exists b, j. split; [|eapply grows_back; eauto]. eapply (at_path_old ps0 (e_parts s)); eauto. { repeat split; auto; apply X. } lia.
  - intros [(b0 & j & A & N)|(f & Hf & Ht)].
    + exists j. assert (A' := grows_path _ _ _ _ G A). rewrite (at_path_det _ _ _ T HB _ A'). auto.
    + apply in_map_iff in Hf as (x & E & Hx). injection E as E1 E2. destruct (p_items _ _ _ _ P x Hx) as (A & F). rewrite E1, E2 in *.
      rewrite <- (at_path_det _ _ _ T HB _ A) in F.
      destruct (Forall2_in_r _ _ _ _ _ (KType, t) F) as (i & Hi & N); [|exists i; exact N].
      apply in_or_app. left. now apply in_map.
Qed.

(** The types of file [f] at path [k] are new, given the files before. *)
Definition fresh_types (ps0 : parts) (done : list (list str * pfile)) (k : list str) (f : pfile) : Prop :=
  NoDup (f_types f) /\ forall t, In t (f_types f) ->
    ~ (exists b0 j, at_path ps0 k b0 /\ node_is ps0 j KType (Some b0) t) /\ ~ exists g, In (k, g) done /\ In t (f_types g).

Lemma NoDup_app_intro : forall A (l1 l2 : list A), NoDup l1 -> NoDup l2 -> (forall x, In x l1 -> In x l2 -> False) -> NoDup (l1 ++ l2).
Proof.
  intros A l1 l2 H1 H2 D. induction H1 as [|x l1 N H1 IH]; [exact H2|]. cbn. constructor.
  - intros H. apply in_app_or in H as [H|H]; [contradiction|]. eapply D; [now left|eauto].
  - apply IH. intros y Y1 Y2. eapply D; [right|]; eauto.
Qed.

Lemma file_p1 : forall ps0 keys al s k b f, tree ps0 -> p1 ps0 keys al s -> at_path (e_parts s) k b ->
  (fresh_types ps0 (done_of al) k f /\ exists ns s', file_step b s f = Ok s' /\ p1 ps0 keys (al ++ [Placed k f b ns]) s' /\ at_path (e_parts s') k b) \/
  (~ fresh_types ps0 (done_of al) k f /\ file_step b s f = Err 4).
Proof.
  intros ps0 keys al s k b f T0 P HB. assert (T := p_tree _ _ _ _ P).
  assert (TO : types_ok (e_parts s) b f <-> fresh_types ps0 (done_of al) k f).
  { unfold types_ok, fresh_types. split; intros [ND H]; split; auto; intros t Ht.
    - assert (NX : ~ exists j, node_is (e_parts s) j KType (Some b) t) by (intros (j & J); eapply H; eauto).
      rewrite (p1_types ps0 keys al s k b t T0 P HB) in NX. split; intros X; apply NX; auto.
    - intros j J. destruct (H t Ht) as [H1 H2]. assert (NX : exists j, node_is (e_parts s) j KType (Some b) t) by eauto.
      rewrite (p1_types ps0 keys al s k b t T0 P HB) in NX. tauto. }
  destruct (file_step_spec s f b k T HB) as [(HT & ps' & ns & E & T' & X & NS & L & IT)|(HT & E)].
  2:{ right. split; auto. rewrite <- TO. auto. }
  left. split; [now apply TO|]. exists ns. eexists. split; [exact E|]. destruct X as (XL & G & XI & XE & XP). assert (X : ext (e_parts s) ps') by (repeat split; auto; try apply XI; try apply XE).
  assert (NB : forall i, length (e_parts s) <= i -> ~ is_kind ps' i KBoundary).
  { intros i Hi (p & t & K). assert (Hl := node_lt _ _ _ _ _ K). assert (In i ns) by (rewrite NS; apply in_seq; lia).
    destruct (Forall2_in_l _ _ _ _ _ _ IT H) as ([k' n] & Hn & N). cbn in N. destruct (node_fun _ _ _ _ _ _ _ _ K N) as (<- & _).
    apply in_app_or in Hn as [Hn|Hn]; apply in_map_iff in Hn as (u & U & _); discriminate. }
  assert (SP := fun p c => at_path_same _ _ p c T T' X NB).
  split; [|cbn; now apply SP]. constructor; cbn [e_parts e_exports e_imports].
  - exact T'.
  - eapply ext_trans; [apply P|exact X].
  - intros r. rewrite <- (p_paths _ _ _ _ P). split; intros (c & C); exists c; now apply SP.
  - rewrite map_app, concat_app. cbn [map concat pl_ids]. rewrite app_nil_r. apply NoDup_app_intro; [apply P|rewrite NS; apply seq_NoDup|].
    intros x Hx Hy. apply (p_new _ _ _ _ P) in Hx as [Hx _]. rewrite NS in Hy. apply in_seq in Hy. lia.
  - intros i. rewrite map_app, concat_app. cbn [map concat pl_ids]. rewrite app_nil_r, in_app_iff, (p_new _ _ _ _ P).
    destruct (p_ext _ _ _ _ P) as (L0 & _). split.
    + intros [(H & K)|H].
      * split; [lia|]. intros K'. apply K. eapply grows_kind_back; eauto. lia.
      * rewrite NS in H. apply in_seq in H. split; [lia|]. apply NB. lia.
    + intros (H & K). destruct (le_lt_dec (length (e_parts s)) i).
      * right. rewrite NS. apply in_seq. lia.
      * left. split; [lia|]. intros K'. apply K. eapply grows_kind; eauto.
  - intros x Hx. apply in_app_or in Hx as [Hx|[<-|[]]]; [eapply placed_grows; [exact G|]; now apply P|]. split; cbn; [now apply SP|exact IT].
  - intros b' pat.
    assert (Q : (exists x, In x (al ++ [Placed k f b ns]) /\ pl_boundary x = b' /\ In pat (file_exports (pl_file x))) <->
                (exists x, In x al /\ pl_boundary x = b' /\ In pat (file_exports (pl_file x))) \/ (b' = b /\ In pat (file_exports f))).
    { split.
      - intros (x & Hx & B & I). apply in_app_or in Hx as [Hx|[<-|[]]]; [left; eauto|]. right. cbn in *. auto.
      - intros [(x & Hx & B & I)|(-> & I)]; [exists x; split; auto; apply in_or_app; auto|]. exists (Placed k f b ns). split; auto. apply in_or_app. right. now left. }
    rewrite Q, <- (p_exports _ _ _ _ P). destruct (file_exports f) as [|y l] eqn:EF.
    + split; auto. intros [H|(_ & [])]; auto.
    + apply extend_entry_pats.
  - intros b' xs H. destruct (file_exports f) as [|y l].
    + eapply grows_kind; [exact G|]. eapply (p_exb _ _ _ _ P); eauto.
    + apply extend_entry_in in H as [(zs & -> & Z & _)|[(-> & _)|H]]; eapply grows_kind; try exact G.
      * eapply (p_exb _ _ _ _ P); eauto.
      * eapply at_path_kind; eauto.
      * eapply (p_exb _ _ _ _ P); eauto.
  - rewrite flat_map_app, <- (p_imports _ _ _ _ P). cbn [flat_map]. unfold imp_entry at 1. cbn [pl_ids pl_file pl_boundary].
    destruct ns, (file_imports f); cbn [app]; now rewrite ?app_nil_r.
Qed.

Fixpoint fresh_files (ps0 : parts) (done todo : list (list str * pfile)) : Prop :=
  match todo with
  | [] => True
  | kf :: r => fresh_types ps0 done (fst kf) (snd kf) /\ fresh_files ps0 (done ++ [kf]) r
  end.
Lemma fresh_files_app : forall ps0 a b done, fresh_files ps0 done (a ++ b) <-> fresh_files ps0 done a /\ fresh_files ps0 (done ++ a) b.
Proof.
  intros ps0 a. induction a as [|x a IH]; intros b done; cbn [fresh_files app]; [rewrite app_nil_r; tauto|].
  rewrite IH, <- app_assoc. cbn [app]. tauto.
Qed.

Lemma done_app : forall a b, done_of (a ++ b) = done_of a ++ done_of b.
Proof. intros. apply map_app. Qed.

Lemma files_p1 : forall fs ps0 keys al s k b, tree ps0 -> p1 ps0 keys al s -> at_path (e_parts s) k b ->
  (fresh_files ps0 (done_of al) (map (pair k) fs) /\ exists al2 s', rfold (file_step b) fs s = Ok s' /\ p1 ps0 keys (al ++ al2) s' /\
     done_of al2 = map (pair k) fs) \/
  (~ fresh_files ps0 (done_of al) (map (pair k) fs) /\ rfold (file_step b) fs s = Err 4).
Proof.
  induction fs as [|f fs IH]; intros ps0 keys al s k b T0 P HB.
  - left. split; [exact I|]. exists [], s. rewrite app_nil_r. auto.
  - cbn [rfold map fresh_files fst snd]. destruct (file_p1 ps0 keys al s k b f T0 P HB) as [(F & ns & s1 & E1 & P1 & B1)|(F & E1)].
    + rewrite E1. cbn [rbind]. assert (DE : done_of (al ++ [Placed k f b ns]) = done_of al ++ [(k, f)]) by (rewrite done_app; reflexivity).
      destruct (IH ps0 keys _ s1 k b T0 P1 B1) as [(F2 & al2 & s2 & E2 & P2 & D2)|(F2 & E2)]; rewrite DE in F2.
      * left. split; auto. exists (Placed k f b ns :: al2), s2. rewrite <- app_assoc in P2. split; auto. split; auto. change (done_of (Placed k f b ns :: al2)) with ((k, f) :: done_of al2). now rewrite D2.
      * right. split; auto. tauto.
    + right. rewrite E1. split; auto. tauto.
Qed.

Lemma path_p1 : forall ps0 keys al s k fs, tree ps0 -> p1 ps0 keys al s ->
  ((Forall good_name k /\ fresh_files ps0 (done_of al) (map (pair k) fs)) /\
     exists al2 s', path_step s (k, fs) = Ok s' /\ p1 ps0 (keys ++ [k]) (al ++ al2) s' /\ done_of al2 = map (pair k) fs) \/
  (~ (Forall good_name k /\ fresh_files ps0 (done_of al) (map (pair k) fs)) /\ exists e, path_step s (k, fs) = Err e /\ 1 <= e <= 4).
Proof.
  intros ps0 keys al s k fs T0 P. assert (T := p_tree _ _ _ _ P). unfold path_step, get_or_create_boundary_path. cbn [fst snd].
  destruct (path_spec k (e_parts s) 0 [] T (at_root _)) as [(GK & b & ps1 & E1 & T1 & X1 & A1 & N1 & P1)|(GK & e & E1 & HE)].
  2:{ right. split; [tauto|]. exists e. unfold root_id. rewrite E1. split; auto. lia. }
  unfold root_id. rewrite E1. cbn [rbind]. cbn [app] in A1.
  assert (PP : p1 ps0 (keys ++ [k]) al (Ext ps1 (e_exports s) (e_imports s))).
  { destruct P as [PT PE PPA PND PNW PIT PEX PXB PIM]. constructor; cbn [e_parts e_exports e_imports]; auto.
    - eapply ext_trans; eauto.
    - intros r. rewrite P1, PPA. split.
      + intros [[H|(k' & v & K & E)]|(u & v & E & ->)]; auto; right.
        * exists k', v. split; auto. apply in_or_app; auto.
        * exists k, v. split; [apply in_or_app; right; now left|]. exact E.
      + intros [H|(k' & v & K & E)]; auto. apply in_app_or in K as [K|[<-|[]]]; [left; right; eauto|]. right. exists r, v. auto.
    - intros i. rewrite PNW. destruct X1 as (XL & XG & _). destruct PE as (PL & _). split.
      + intros (H & K). split; [lia|]. intros K'. apply K. eapply grows_kind_back; eauto. lia.
      + intros (H & K). destruct (le_lt_dec (length (e_parts s)) i) as [HL|HL].
        * exfalso. apply K. apply N1; lia.
        * split; [lia|]. intros K'. apply K. eapply grows_kind; eauto.
    - intros x Hx. eapply placed_grows; [apply X1|]. auto.
    - intros b' xs H. eapply grows_kind; [apply X1|]. eauto. }
  destruct (files_p1 fs ps0 _ al _ k b T0 PP A1) as [(F & al2 & s2 & E2 & P2 & D2)|(F & E2)].
  - left. split; auto. exists al2, s2. auto.
  - right. split; [tauto|]. exists 4. split; [auto|lia].
Qed.

Lemma phase1 : forall fsmap ps0 keys al s, tree ps0 -> p1 ps0 keys al s ->
  (((forall k fs, In (k, fs) fsmap -> Forall good_name k) /\ fresh_files ps0 (done_of al) (all_files fsmap)) /\
     exists al2 s', rfold path_step fsmap s = Ok s' /\ p1 ps0 (keys ++ map fst fsmap) (al ++ al2) s' /\ done_of al2 = all_files fsmap) \/
  (~ ((forall k fs, In (k, fs) fsmap -> Forall good_name k) /\ fresh_files ps0 (done_of al) (all_files fsmap)) /\
     exists e, rfold path_step fsmap s = Err e /\ 1 <= e <= 4).
Proof.
  induction fsmap as [|[k fs] fsmap IH]; intros ps0 keys al s T0 P.
  - left. split; [split; [intros k fs []|exact I]|]. exists [], s. cbn [map all_files flat_map rfold]. rewrite !app_nil_r. auto.
  - cbn [rfold map fst]. assert (AF : all_files ((k, fs) :: fsmap) = map (pair k) fs ++ all_files fsmap) by reflexivity. rewrite AF, fresh_files_app.
    destruct (path_p1 ps0 keys al s k fs T0 P) as [((GK & F) & al1 & s1 & E1 & P1 & D1)|(NF & e & E1 & HE)].
    + rewrite E1. cbn [rbind]. destruct (IH ps0 _ _ s1 T0 P1) as [((G2 & F2) & al2 & s2 & E2 & P2 & D2)|(NF & e & E2 & HE)]; rewrite done_app, D1 in *.
      * left. split.
        { split; auto. intros k' fs' [E|H]; [injection E as <- <-; auto|eauto]. }
        exists (al1 ++ al2), s2. split; auto. rewrite app_assoc. rewrite <- app_assoc in P2. cbn [app] in P2. split; auto. now rewrite done_app, D1, D2.
      * right. split; [|exists e; auto]. intros (G2 & F1 & F2). apply NF. split; auto. intros k' fs' H. apply (G2 k' fs'). now right.
    + right. rewrite E1. split; [|exists e; auto]. intros (G & F & _). apply NF. split; auto. apply (G k fs). now left.
Qed.

(** ** The independent form of the conditions *)
Definition types_at (l : list (list str * pfile)) (path : list str) : list str :=
  flat_map (fun kf => if path_eqb (fst kf) path then f_types (snd kf) else []) l.
Lemma types_at_app : forall a b path, types_at (a ++ b) path = types_at a path ++ types_at b path.
Proof. intros. apply flat_map_app. Qed.
Lemma path_eqb_eq : forall a b, path_eqb a b = true <-> a = b.
Proof. intros a b. unfold path_eqb. destruct (list_eq_dec str_eq_dec a b); split; auto; discriminate. Qed.
Lemma types_at_in : forall l path t, In t (types_at l path) <-> exists g, In (path, g) l /\ In t (f_types g).
Proof.
  intros l path t. unfold types_at. rewrite in_flat_map. split.
  - intros ([k g] & H & I). cbn in I. destruct (path_eqb k path) eqn:E; [|destruct I]. apply path_eqb_eq in E as ->. eauto.
  - intros (g & H & I). exists (path, g). split; auto. cbn. assert (E : path_eqb path path = true) by now apply path_eqb_eq. now rewrite E.
Qed.
Lemma types_at_defined : forall fsmap path, types_at (all_files fsmap) path = defined f_types fsmap path.
Proof.
  intros fsmap path. unfold defined. induction fsmap as [|[k fs] fsmap IH]; [reflexivity|].
  unfold all_files. cbn [flat_map fst snd]. rewrite types_at_app. unfold all_files in IH. rewrite IH. f_equal.
  induction fs as [|f fs IHf]; cbn; [now destruct (path_eqb k path)|].
  unfold types_at in *. cbn. rewrite IHf. destruct (path_eqb k path); reflexivity.
Qed.
Lemma NoDup_app_iff : forall A (l1 l2 : list A), NoDup (l1 ++ l2) <-> NoDup l1 /\ NoDup l2 /\ (forall x, In x l1 -> In x l2 -> False).
Proof.
  intros A l1 l2. split; [|intros (H1 & H2 & D); now apply NoDup_app_intro]. intros H. induction l1 as [|a l1 IH]; cbn in H.
  - split; [constructor|]. auto.
  - inversion H; subst. destruct (IH H3) as (A1 & A2 & A3). split; [constructor; auto; intros X; apply H2, in_or_app; auto|]. split; auto.
    intros x [<-|X] Y; [apply H2, in_or_app; auto|eauto].
Qed.

Lemma fresh_files_iff : forall ps0 todo done, fresh_files ps0 done todo <->
  forall path, NoDup (types_at todo path) /\ forall t, In t (types_at todo path) ->
    ~ (exists b0 j, at_path ps0 path b0 /\ node_is ps0 j KType (Some b0) t) /\ ~ In t (types_at done path).
Proof.
  intros ps0 todo. induction todo as [|[k f] todo IH]; intros done; cbn [fresh_files fst snd].
  - split; auto. intros _ path. cbn. split; [constructor|intros t []].
  - rewrite IH. assert (TA : forall path, types_at ((k, f) :: todo) path = (if path_eqb k path then f_types f else []) ++ types_at todo path) by reflexivity. split.
    + intros [[ND F] H] path. rewrite TA. destruct (H path) as [H1 H2]. destruct (path_eqb k path) eqn:E; cbn [app].
      * apply path_eqb_eq in E as <-. split.
        -- apply NoDup_app_intro; auto. intros x X1 X2. apply (proj2 (H2 x X2)). rewrite types_at_app. apply in_or_app. right. apply types_at_in. exists f. split; auto. now left.
        -- intros t Ht. apply in_app_or in Ht as [Ht|Ht].
           ++ destruct (F t Ht) as [F1 F2]. split; auto. rewrite types_at_in. exact F2.
           ++ destruct (H2 t Ht) as [A B]. split; auto. intros X. apply B. rewrite types_at_app. apply in_or_app. auto.
      * split; auto. intros t Ht. destruct (H2 t Ht) as [A B]. split; auto. intros X. apply B. rewrite types_at_app. apply in_or_app. auto.
    + intros H. split.
      * destruct (H k) as [H1 H2]. rewrite TA in *. assert (E : path_eqb k k = true) by now apply path_eqb_eq. rewrite E in *.
        apply NoDup_app_iff in H1 as (N1 & _ & _). split; auto. intros t Ht. rewrite <- types_at_in. apply H2. apply in_or_app; auto.
      * intros path. destruct (H path) as [H1 H2]. rewrite TA in *. apply NoDup_app_iff in H1 as (N1 & N2 & D). split; auto. intros t Ht.
        destruct (H2 t) as [A B]; [apply in_or_app; auto|]. split; auto. rewrite types_at_app. intros X. apply in_app_or in X as [X|X]; auto.
        cbn in X. rewrite app_nil_r in X. eauto.
Qed.

Lemma acceptable_iff : forall ps0 fsmap, acceptable ps0 fsmap <->
  (forall k fs, In (k, fs) fsmap -> Forall good_name k) /\ fresh_files ps0 [] (all_files fsmap).
Proof.
  intros ps0 fsmap. unfold acceptable. rewrite fresh_files_iff. split.
  - intros (A & B & C). split; auto. intros path. rewrite types_at_defined. split; auto. intros t Ht. split; [|intros []].
    intros (b & j & H1 & H2). eapply C; eauto.
  - intros (A & B). split; auto. split.
    + intros path. rewrite <- types_at_defined. apply B.
    + intros path s b i Hs H1 H2. rewrite <- types_at_defined in Hs. destruct (B path) as [_ B2]. apply (proj1 (B2 s Hs)). eauto.
Qed.

Lemma phase1_top : forall fsmap ps0, tree ps0 ->
  (acceptable ps0 fsmap /\ exists al s', rfold path_step fsmap (Ext ps0 [] []) = Ok s' /\ p1 ps0 (map fst fsmap) al s' /\ done_of al = all_files fsmap) \/
  (~ acceptable ps0 fsmap /\ exists e, rfold path_step fsmap (Ext ps0 [] []) = Err e /\ 1 <= e <= 4).
Proof.
  intros fsmap ps0 T. rewrite acceptable_iff. exact (phase1 fsmap ps0 [] [] _ T (p1_start ps0 T)).
Qed.
