From Coq Require Import String List NArith Arith Lia Bool Sorted Permutation.
From Verif Require Import Model.Base Model.TableCrate Model.Parts Spec.SortSpec Spec.PartsSpec
  Proofs.SortProofs Proofs.PartSetProofs Proofs.PartsTreeProofs Proofs.PartsBuildProofs Proofs.PartsUseProofs.
Import ListNotations.

Lemma new_tree : tree parts_new.
Proof.
  assert (N : forall i n, nth_error parts_new i = Some n -> i < 3 /\ pn_parent n = None /\ pn_item n = PBoundary [] []).
  { intros [|[|[|i]]] n H; cbn in H; try (injection H as <-; cbn; split; auto; lia). destruct i; discriminate. }
  assert (C : forall i b, ~ child_of parts_new i b).
  { intros i b (k & s & n & E & _ & P & _). apply N in E as (_ & E & _). congruence. }
  constructor.
  - split; [cbn; lia|]. intros i n Hi E. apply N in E as (_ & P & I). split; auto. unfold kind_of. now rewrite I.
  - intros i n Hi E. apply N in E. lia.
  - intros b n e cs E I. apply N in E as (_ & _ & I'). rewrite I in I'. injection I' as -> ->. split; [constructor|]. intros i. split; [intros []|]. intros H. now apply C in H.
  - intros i j k p s _ H. exfalso. eapply (C i p). exists k, s. auto.
  - intros i p s H. exfalso. eapply (C i p). exists KBoundary, s. auto.
  - intros b l i (n & cs & E & I) Hi. apply N in E as (_ & _ & I'). rewrite I in I'. injection I' as -> ->. destruct Hi.
  - intros j l i (n & E & I) Hi. apply N in E as (_ & _ & I'). destruct I; congruence.
Qed.

Lemma built_same : forall ps fsmap a b al, built ps fsmap a al -> same_tree a b -> tree b -> built ps fsmap b al.
Proof.
  intros ps fsmap a b al [B1 B2 B3 B4 B5 B6 B7 B8] S T. assert (S2 := S). destruct S2 as [L N]. constructor; auto.
  - eapply grows_trans; [exact B3|]. now apply same_grows.
  - intros path. rewrite <- B4. split; intros (c & C); exists c; now apply (same_path a b path c S).
  - intros x Hx. eapply placed_grows; [apply same_grows; exact S|]. auto.
  - intros i k p s H HL. apply N in H. specialize (B7 i k p s H HL). destruct (kind_eqb k KBoundary); auto.
    destruct B7 as (path & P). exists path. now apply (same_path a b path i S).
Qed.

Lemma p1_built : forall ps fsmap al s, p1 ps (map fst fsmap) al s -> done_of al = all_files fsmap -> built ps fsmap (e_parts s) al.
Proof.
  intros ps fsmap al s P D. assert (X := p_ext _ _ _ _ P). destruct X as (L & G & XI & XE & XP). constructor; auto.
  - apply P.
  - intros path. rewrite (p_paths _ _ _ _ P). split; intros [H|H]; auto; right.
    + destruct H as (k & v & H & E). apply in_map_iff in H as ([k' fs] & E' & H). cbn in E'. subst k'. exists k, fs, v. auto.
    + destruct H as (k & fs & v & H & E). exists k, v. split; auto. apply in_map_iff. exists (k, fs). auto.
  - intros x Hx. apply (p_items _ _ _ _ P); auto.
  - apply P.
  - intros i k p t H HL. destruct (kind_eqb k KBoundary) eqn:E.
    + apply XP; auto. exists p, t. unfold kind_eqb in E. apply Nat.eqb_eq in E. destruct k; try discriminate. auto.
    + apply (p_new _ _ _ _ P). split; [split; auto; eapply node_lt; eauto|]. intros (p' & t' & K). destruct (node_fun _ _ _ _ _ _ _ _ H K) as (-> & _). discriminate.
  - intros i Hi. apply (p_new _ _ _ _ P) in Hi. lia.
Qed.

Lemma imp_entries : forall al x, In x (flat_map imp_entry al) <->
  exists p, In p al /\ pl_ids p <> [] /\ file_imports (pl_file p) <> [] /\ x = (pl_boundary p, file_imports (pl_file p), pl_ids p).
Proof.
  intros al x. rewrite in_flat_map. split; intros (p & Hp & H); exists p; split; auto; unfold imp_entry in *.
  - destruct (pl_ids p) eqn:E1; [destruct H|]. destruct (file_imports (pl_file p)) eqn:E2; [destruct H|]. destruct H as [<-|[]]. split; [discriminate|]. split; [discriminate|]. auto.
  - destruct H as (H1 & H2 & ->). destruct (pl_ids p); [contradiction|]. destruct (file_imports (pl_file p)); [contradiction|]. now left.
Qed.
Lemma imp_nodup : forall al, NoDup (concat (map pl_ids al)) -> NoDup (concat (map snd (flat_map imp_entry al))).
Proof.
  induction al as [|x al IH]; intros H; [constructor|]. cbn [map concat flat_map] in *. apply NoDup_app_iff in H as (H1 & H2 & H3).
  rewrite map_app, concat_app. apply NoDup_app_intro; auto.
  - unfold imp_entry. destruct (pl_ids x) eqn:E; [constructor|]. destruct (file_imports (pl_file x)); cbn; [constructor|]. rewrite app_nil_r. auto.
  - intros i A B. apply (H3 i).
    + unfold imp_entry in A. destruct (pl_ids x) eqn:E; [destruct A|]. destruct (file_imports (pl_file x)); cbn [map concat snd] in A; [destruct A|]. rewrite app_nil_r in A. auto.
    + apply in_concat in B as (l & Hl & Hi). apply in_map_iff in Hl as (y & <- & Hy). apply imp_entries in Hy as (p & Hp & _ & _ & ->). cbn in Hi.
      apply in_concat. exists (pl_ids p). split; auto. now apply in_map.
Qed.

Section Final.
  Variable so : sorter.
  Variable pp : forall A : Type, (A -> bool) -> list A -> nat.
  Variable glob : str -> option (str -> bool).
  Variable hash_order : list (nat * list str) -> list (nat * list str).
  Hypothesis HSO : sort_contract so.
  Hypothesis HPP : partition_contract pp.
  Hypothesis HHO : forall m, Permutation m (hash_order m).

  Lemma empty_set : forall ps, id_set so ps [].
  Proof.
    intros ps. exists [], []. split; [intros i k p s (n & E & _); destruct i; discriminate|]. split; [intros i []|]. unfold from_vec.
    destruct (HSO nat Nat.compare []) as (P & _). apply Permutation_nil in P. rewrite P. cbn.
    destruct (HSO nat (id_cmp []) []) as (P2 & _). apply Permutation_nil in P2. now rewrite P2.
  Qed.

  Lemma extend_cases : forall ps fsmap, tree ps ->
    (~ acceptable ps fsmap /\ exists e, extend_root so glob hash_order ps fsmap = Err e /\ 1 <= e <= 4) \/
    (acceptable ps fsmap /\ exists ps1 al, built ps fsmap ps1 al /\
      ((~ exports_match glob ps1 al /\ exists e, extend_root so glob hash_order ps fsmap = Err e /\ 5 <= e <= 9) \/
       (exports_match glob ps1 al /\ exists ps2, built ps fsmap ps2 al /\ exports_match glob ps2 al /\ exports_done glob ps ps2 al /\
         ((~ imports_match glob ps2 al /\ exists e, extend_root so glob hash_order ps fsmap = Err e /\ 5 <= e <= 9) \/
          (exists ps3, extend_root so glob hash_order ps fsmap = Ok ps3 /\ built ps fsmap ps3 al /\ exports_match glob ps3 al /\ imports_match glob ps3 al /\
             exports_done glob ps ps3 al /\ imports_done so glob ps ps3 al))))).
  Proof.
    intros ps fsmap T. unfold extend_root. destruct (phase1_top fsmap ps T) as [(A & al & s & E1 & P & D)|(A & e & E1 & HE)].
    2:{ left. split; auto. exists e. rewrite E1. auto. }
    right. split; auto. rewrite E1. cbn [rbind]. set (ps1 := e_parts s) in *. assert (B1 := p1_built ps fsmap al s P D). fold ps1 in B1.
    assert (T1 : tree ps1) by apply P. destruct (p_ext _ _ _ _ P) as (L & G & XI & XE & XP). fold ps1 in L, G, XI, XE, XP.
    exists ps1, al. split; auto.
    assert (HIN : forall x, In x (hash_order (e_exports s)) <-> In x (e_exports s)).
    { intros x. split; intros H; [eapply Permutation_in; [apply Permutation_sym, HHO|]; auto|eapply Permutation_in; [apply HHO|]; auto]. }
    assert (EM : (forall b pats pat, In (b, pats) (hash_order (e_exports s)) -> In pat pats -> exists i, exportable glob ps1 b pat i) <-> exports_match glob ps1 al).
    { split.
      - intros H x pat Hx Hp. destruct (proj2 (p_exports _ _ _ _ P (pl_boundary x) pat)) as (xs & X1 & X2); [eauto|]. eapply H; [apply HIN|]; eauto.
      - intros H b pats pat Hb Hp. apply HIN in Hb. destruct (proj1 (p_exports _ _ _ _ P b pat)) as (x & X1 & <- & X2); [eauto|]. eapply H; eauto. }
    assert (EX0 : forall b i, exported ps1 b i <-> exported ps b i).
    { intros b i. unfold exported. split; intros (l & H & Hi); [apply XE in H as [H|(_ & _ & ->)]; [eauto|destruct Hi]|]. exists l. split; auto. apply XE; auto. }
    destruct (exports_phase so glob HSO (hash_order (e_exports s)) ps1 T1) as [(M & ps2 & E2 & T2 & S2 & I2 & X2)|(M & e & E2 & HE)].
    { intros b pats H. apply HIN in H. eapply (p_exb _ _ _ _ P); eauto. }
    2:{ left. rewrite EM in M. split; auto. exists e. rewrite E2. split; auto. lia. }
    right. apply EM in M. split; auto. rewrite E2. cbn [rbind].
    assert (B2 : built ps fsmap ps2 al) by (eapply built_same; eauto).
    assert (M2 : exports_match glob ps2 al) by (intros x pat Hx Hp; destruct (M x pat Hx Hp) as (i & Hi); exists i; now apply (exportable_same glob ps1)).
    assert (D2 : exports_done glob ps ps2 al).
    { intros b i. rewrite X2, EX0. split; intros [H|H]; auto; right.
      - destruct H as (pats & pat & Hb & Hp & H). apply HIN in Hb. destruct (proj1 (p_exports _ _ _ _ P b pat)) as (x & Y1 & Y2 & Y3); [eauto|].
        exists x, pat. split; auto. split; auto. split; auto. now apply (exportable_same glob ps1).
      - destruct H as (x & pat & Hx & Hb & Hp & H). destruct (proj2 (p_exports _ _ _ _ P b pat)) as (xs & Y1 & Y2); [eauto|].
        exists xs, pat. split; [now apply HIN|]. split; auto. now apply (exportable_same glob ps1) in H. }
    exists ps2. split; auto. split; auto. split; auto.
    assert (KI : forall x i, In x al -> In i (pl_ids x) -> exists k, is_kind ps2 i k /\ k <> KBoundary).
    { intros x i Hx Hi. destruct (b_items _ _ _ _ B2 x Hx) as (_ & F). destruct (Forall2_in_l _ _ _ _ _ _ F Hi) as ([k n] & Hn & N). cbn in N.
      exists k. split; [exists (Some (pl_boundary x)), n; auto|]. intros ->. apply in_app_or in Hn as [Hn|Hn]; apply in_map_iff in Hn as (u & U & _); discriminate. }
    rewrite (p_imports _ _ _ _ P).
    assert (IM : (forall x, In x (flat_map imp_entry al) -> imp_ok glob ps2 x) <-> imports_match glob ps2 al).
    { split.
      - intros H x im Hx Hn Hi. apply (H (pl_boundary x, file_imports (pl_file x), pl_ids x)); auto. apply imp_entries. exists x. split; auto. split; auto.
        split; auto. intros Q. rewrite Q in Hi. destruct Hi.
      - intros H x Hx. apply imp_entries in Hx as (p & Hp & H1 & H2 & ->). intros im Him. cbn in *. eapply H; eauto. }
    destruct (imports_phase so glob HSO (flat_map imp_entry al) ps2 T2) as [(M3 & ps3 & E3 & T3 & S3 & X3 & I3 & R3)|(M3 & e & E3 & HE)].
    { intros x Hx. apply imp_entries in Hx as (p & Hp & H1 & H2 & ->). cbn [fst snd]. split; [eapply at_path_kind; [exact T2|]; apply (b_items _ _ _ _ B2 p Hp)|]. split; auto. eauto. }
    { apply imp_nodup. apply P. }
    2:{ left. rewrite IM in M3. split; auto. exists e. rewrite E3. auto. }
    right. exists ps3. split; auto. split; [eapply built_same; eauto|].
    assert (EXS : forall b pat i, exportable glob ps3 b pat i <-> exportable glob ps2 b pat i) by (intros; now apply exportable_same).
    assert (IMS : forall b im i, imported glob ps3 b im i <-> imported glob ps2 b im i) by (intros; now apply imported_same).
    split; [intros x pat Hx Hp; destruct (M2 x pat Hx Hp) as (i & Hi); exists i; now apply EXS|].
    split; [apply IM in M3; intros x im Hx Hn Hi; destruct (M3 x im Hx Hn Hi) as (y & Y); exists y; now apply IMS|].
    split.
    { intros b i. assert (Q : exported ps3 b i <-> exported ps2 b i) by (split; intros (l & H & Hi); exists l; (split; [now apply X3|auto])).
      rewrite Q, (D2 b i). split; intros [H|(x & pat & H1 & H2 & H3 & H4)]; auto; right; exists x, pat; repeat (split; [auto|]); now apply EXS. }
    split.
    - intros x i Hx Hi. destruct (file_imports (pl_file x)) as [|im0 ims0] eqn:EI.
      + exists []. split; [|split; [apply empty_set|intros y; split; [intros []|intros (im & [] & _)]]]. apply R3.
        * intros Q. apply in_concat in Q as (l & Hl & Hil). apply in_map_iff in Hl as (y & <- & Hy). apply imp_entries in Hy as (p & Hp & H1 & H2 & ->). cbn in Hil.
          assert (p = x); [|subst; rewrite EI in H2; contradiction].
          assert (ND := p_nodup _ _ _ _ P). clear - ND Hp Hx Hil Hi. induction al as [|z al IH]; [destruct Hp|]. cbn [map concat] in ND. apply NoDup_app_iff in ND as (N1 & N2 & N3).
          destruct Hp as [->|Hp], Hx as [->|Hx]; auto; exfalso; apply (N3 i); auto; apply in_concat; [exists (pl_ids x)|exists (pl_ids p)]; split; auto; now apply in_map.
        * apply I2, XI. right. assert (Hc : In i (concat (map pl_ids al))) by (apply in_concat_ids; eauto). split; [apply (p_new _ _ _ _ P) in Hc; lia|]. split; auto.
          destruct (KI x i Hx Hi) as (k & K1 & K2). exists k. split; auto. now apply (same_kind ps1 ps2) in K1.
      + assert (HE : In (pl_boundary x, file_imports (pl_file x), pl_ids x) (flat_map imp_entry al)).
        { apply imp_entries. exists x. split; auto. split; [intros Q; rewrite Q in Hi; destruct Hi|]. split; auto. rewrite EI. discriminate. }
        destruct (I3 _ i HE Hi) as (l & L1 & L2 & L3). cbn [fst snd] in *. exists l. split; auto. split.
        * destruct L2 as (ps0 & ids & G0 & F). exists ps0, ids. split; auto. eapply grows_trans; [exact G0|]. now apply same_grows.
        * intros y. rewrite L3, EI. split; intros (im & Him & Y); exists im; (split; [auto|]); now apply IMS.
    - intros j l H. apply R3.
      + intros Q. apply in_concat in Q as (l' & Hl & Hil). apply in_map_iff in Hl as (y & <- & Hy). apply imp_entries in Hy as (p & Hp & H1 & H2 & ->). cbn in Hil.
        apply imports_lt in H. assert (Hc : In j (concat (map pl_ids al))) by (apply in_concat_ids; eauto). apply (p_new _ _ _ _ P) in Hc. lia.
      + apply I2, XI. auto.
  Qed.

  (** ** The properties *)
  Theorem extend_no_panic : forall ps fsmap, tree ps -> extend_root so glob hash_order ps fsmap <> Panic.
  Proof.
    intros ps fsmap T. destruct (extend_cases ps fsmap T) as [(_ & e & -> & _)|(_ & ps1 & al & _ & [(_ & e & -> & _)|(_ & ps2 & _ & _ & _ & [(_ & e & -> & _)|(ps3 & -> & _)])])]; discriminate.
  Qed.
  Theorem extend_rejects : forall ps fsmap, tree ps -> ~ acceptable ps fsmap -> exists e, extend_root so glob hash_order ps fsmap = Err e.
  Proof. intros ps fsmap T NA. destruct (extend_cases ps fsmap T) as [(_ & e & E & _)|(A & _)]; [eauto|contradiction]. Qed.
  Theorem extend_built : forall ps fsmap ps', tree ps -> extend_root so glob hash_order ps fsmap = Ok ps' -> acceptable ps fsmap /\ exists al, built ps fsmap ps' al.
  Proof.
    intros ps fsmap ps' T E. destruct (extend_cases ps fsmap T) as [(_ & e & E' & _)|(A & ps1 & al & _ & [(_ & e & E' & _)|(_ & ps2 & _ & _ & _ & [(_ & e & E' & _)|(ps3 & E' & B & _)])])]; rewrite E in E'; try discriminate.
    injection E' as <-. eauto.
  Qed.
  Theorem extend_links : forall ps fsmap ps', tree ps -> extend_root so glob hash_order ps fsmap = Ok ps' ->
    exists al, built ps fsmap ps' al /\ exports_match glob ps' al /\ imports_match glob ps' al /\ exports_done glob ps ps' al /\ imports_done so glob ps ps' al.
  Proof.
    intros ps fsmap ps' T E. destruct (extend_cases ps fsmap T) as [(_ & e & E' & _)|(A & ps1 & al & _ & [(_ & e & E' & _)|(_ & ps2 & _ & _ & _ & [(_ & e & E' & _)|(ps3 & E' & B)])])]; rewrite E in E'; try discriminate.
    injection E' as <-. eauto.
  Qed.
  Theorem extend_fails : forall ps fsmap e, tree ps -> acceptable ps fsmap -> extend_root so glob hash_order ps fsmap = Err e ->
    exists ps1 al, built ps fsmap ps1 al /\ (~ exports_match glob ps1 al \/ (exports_done glob ps ps1 al /\ ~ imports_match glob ps1 al)).
  Proof.
    intros ps fsmap e T A E. destruct (extend_cases ps fsmap T) as [(NA & _)|(_ & ps1 & al & B1 & [(M & _)|(_ & ps2 & B2 & _ & X2 & [(M & _)|(ps3 & E' & _)])])].
    - contradiction.
    - eauto.
    - exists ps2, al. auto.
    - congruence.
  Qed.

  (** ** Finding *)
  Lemma split_join : forall segs, segs <> [] -> Forall no_slash segs -> split_slash (join segs) = segs.
  Proof.
    assert (S : forall s, no_slash s -> split_slash s = [s]).
    { induction s as [|c s IH]; intros H; [reflexivity|]. cbn. rewrite IH by (intros X; apply H; now right).
      destruct (N.eqb_spec c 47) as [->|N]; auto. exfalso. apply H. now left. }
    assert (A : forall s t, no_slash s -> split_slash (s ++ 47%N :: t) = s :: split_slash t).
    { induction s as [|c s IH]; intros t H.
      - cbn. destruct (split_slash t) eqn:E; auto. destruct t; cbn in E; [discriminate|]. destruct (split_slash t); [discriminate|]. destruct (n =? 47)%N; discriminate.
      - cbn [app split_slash]. rewrite IH by (intros X; apply H; now right). destruct (N.eqb_spec c 47) as [->|N]; auto. exfalso. apply H. now left. }
    induction segs as [|s segs IH]; intros NE H; [contradiction|]. inversion H; subst. destruct segs as [|s2 segs]; [now apply S|].
    cbn [join]. rewrite A by auto. f_equal. apply IH; auto. discriminate.
  Qed.

  Lemma find_step_spec : forall ps bnds x, tree ps -> (forall i, In i bnds -> i < length ps) ->
    exists r, find_step ps bnds x = Ok r /\ (forall i, In i r -> i < length ps) /\
      forall rest y, (exists i, In i r /\ walks ps i rest y) <-> (exists i, In i bnds /\ walks ps i (x :: rest) y).
  Proof.
    intros ps bnds x T HB. unfold find_step. destruct (str_eqb x (lit "..")) eqn:EX.
    - apply str_eqb_eq in EX. subst x.
      rewrite (rmapM_ok _ _ _ (fun i => nth i ps (PNode [] None (PType [])))).
      2:{ intros i Hi. destruct (nth_some _ ps i (HB i Hi)) as (n & E). unfold pget. rewrite E. now rewrite (nth_error_nth _ _ _ E). }
      cbn [rbind]. eexists. split; [reflexivity|].
      assert (M : forall q, In q (flat_map (fun n => match pn_parent n with Some p => [p] | None => [] end) (map (fun i => nth i ps (PNode [] None (PType []))) bnds)) <->
                    exists i k s, In i bnds /\ node_is ps i k (Some q) s).
      { intros q. rewrite in_flat_map. split.
        - intros (n & Hn & Hq). apply in_map_iff in Hn as (i & <- & Hi). destruct (nth_some _ ps i (HB i Hi)) as (n & E). rewrite (nth_error_nth _ _ _ E) in Hq.
          destruct (pn_parent n) as [p|] eqn:EP; [|destruct Hq]. destruct Hq as [<-|[]]. exists i, (kind_of n), (pn_name n). split; auto. exists n. auto.
        - intros (i & k & s & Hi & n & E & _ & P & _). exists n. split; [apply in_map_iff; exists i; split; auto; now apply nth_error_nth|]. rewrite P. now left. }
      split.
      + intros q Hq. apply M in Hq as (i & k & s & Hi & H). destruct (tree_parent _ _ _ _ _ T H) as [L _]. apply node_lt in H. lia.
      + intros rest y. split.
        * intros (q & Hq & W). apply M in Hq as (i & k & s & Hi & H). exists i. split; auto. eapply walks_up; eauto.
        * intros (i & Hi & W). inversion W; subst; [|exfalso; match goal with HX : _ <> lit ".." |- _ => apply HX; reflexivity end].
          match goal with HN : node_is _ _ _ _ _, HW : walks _ _ rest y |- _ => eexists; split; [apply M; eauto|exact HW] end.
    - apply str_eqb_neq in EX.
      rewrite (rfilter_ok _ _ (fun i => match nth_error ps i with Some n => is_boundary n | None => false end)).
      2:{ intros i Hi. destruct (nth_some _ ps i (HB i Hi)) as (n & E). unfold pget. now rewrite E. }
      cbn [rbind]. set (bs := filter _ bnds).
      assert (BS : forall i, In i bs <-> In i bnds /\ is_kind ps i KBoundary).
      { intros i. unfold bs. rewrite filter_In. split; intros [H1 H2]; split; auto.
        - destruct (nth_error ps i) as [n|] eqn:E; [|discriminate]. apply is_boundary_kind in H2. exists (pn_parent n), (pn_name n), n. auto.
        - destruct H2 as (p & s & n & -> & K & _). now apply is_boundary_kind. }
      assert (CS : exists f, forall b, In b bs -> pchildren ps b = Ok (f b) /\ forall i, In i (f b) <-> child_of ps i b).
      { exists (fun b => match pchildren ps b with Ok l => l | _ => [] end). intros b Hb. apply BS in Hb as [_ Hb]. destruct (tree_children ps b T Hb) as (cs & -> & I). auto. }
      destruct CS as (f & CS). rewrite (rmapM_ok _ _ _ f) by (intros b Hb; now apply CS). cbn [rbind].
      assert (CC : forall i, In i (concat (map f bs)) <-> exists b, In b bs /\ child_of ps i b).
      { intros i. rewrite in_concat. split.
        - intros (l & Hl & Hi). apply in_map_iff in Hl as (b & <- & Hb). exists b. split; auto. now apply CS.
        - intros (b & Hb & Hi). exists (f b). split; [now apply in_map|]. now apply CS. }
      rewrite (rfilter_ok _ _ (fun i => match nth_error ps i with Some n => str_eqb (pn_name n) x | None => false end)).
      2:{ intros i Hi. apply CC in Hi as (b & _ & Hi). apply child_lt, nth_some in Hi as (n & E). unfold pget. now rewrite E. }
      eexists. split; [reflexivity|].
      assert (M : forall c, In c (filter (fun i => match nth_error ps i with Some n => str_eqb (pn_name n) x | None => false end) (concat (map f bs))) <->
                    exists b k, In b bnds /\ node_is ps c k (Some b) x).
      { intros c. rewrite filter_In, CC. split.
        - intros [(b & Hb & k & s & n & E & K & P & N) Q]. rewrite E in Q. apply str_eqb_eq in Q. apply BS in Hb as [Hb _]. exists b, k. split; auto. exists n. subst. auto.
        - intros (b & k & Hb & H). destruct (tree_parent _ _ _ _ _ T H) as [_ KB]. split.
          + exists b. split; [apply BS; auto|]. exists k, x. auto.
          + destruct H as (n & -> & _ & _ & <-). now apply str_eqb_eq. }
      split; [intros c Hc; apply M in Hc as (b & k & _ & H); eapply node_lt; eauto|]. intros rest y. split.
      + intros (c & Hc & W). apply M in Hc as (b & k & Hb & H). exists b. split; auto. eapply walks_down; eauto.
      + intros (b & Hb & W). inversion W; subst; [exfalso; match goal with HX : _ <> lit ".." |- _ => apply HX; reflexivity end|].
        match goal with HN : node_is _ ?c _ (Some b) x, HW : walks _ _ rest y |- _ => exists c; split; [apply M; eauto|exact HW] end.
  Qed.

  Lemma find_steps : forall ps segs bnds, tree ps -> (forall i, In i bnds -> i < length ps) ->
    exists r, rfold (find_step ps) segs bnds = Ok r /\ forall y, In y r <-> exists i, In i bnds /\ walks ps i segs y.
  Proof.
    intros ps segs. induction segs as [|x segs IH]; intros bnds T HB.
    - exists bnds. split; auto. intros y. split; [intros H; exists y; split; auto; constructor|]. intros (i & Hi & W). inversion W; subst; auto.
    - cbn [rfold]. destruct (find_step_spec ps bnds x T HB) as (r & E & L & W). rewrite E. cbn [rbind]. destruct (IH r T L) as (r2 & E2 & W2).
      exists r2. split; auto. intros y. rewrite W2. apply W.
  Qed.

  Theorem find_absolute : forall ps within imports s segs (plug : bool), tree ps -> s <> [] -> Forall no_slash (s :: segs) ->
    exists r, pfind so pp ps within imports (47%N :: (if plug then [47%N] else []) ++ join (s :: segs)) = Ok r /\ StronglySorted lt r /\
      forall y, In y r <-> walks ps (if plug then 2 else 0) (s :: segs) y.
  Proof.
    intros ps within imports s segs plug T NE NS. unfold pfind.
    assert (HJ : exists c t, join (s :: segs) = c :: t /\ c <> 47%N).
    { inversion NS; subst. destruct s as [|c s]; [contradiction|]. assert (c <> 47%N) by (intros ->; apply H1; now left). destruct segs; cbn; eauto. }
    assert (SJ := split_join (s :: segs) ltac:(discriminate) NS). destruct HJ as (c & t & EJ & NC). rewrite EJ in *.
    assert (FS : find_start pp ps within imports (47%N :: (if plug then [47%N] else []) ++ c :: t) = Ok ([if plug then 2 else 0], s :: segs)).
    { destruct plug; cbn [app find_start].
      - now rewrite SJ.
      - assert (CS : match c with 47%N => true | _ => false end = false) by (clear - NC; destruct c as [|p]; auto; do 6 (destruct p as [p|p|]; try reflexivity); now contradiction NC).
        rewrite <- SJ. clear - CS. destruct c as [|p]; auto. do 6 (destruct p as [p|p|]; try reflexivity). discriminate. }
    rewrite FS. cbn [rbind fst snd].
    destruct (find_steps ps (s :: segs) [if plug then 2 else 0] T) as (r & E & W).
    { intros i [<-|[]]. destruct (t_roots _ T) as [L _]. destruct plug; lia. }
    rewrite E. cbn [rbind]. eexists. split; [reflexivity|]. destruct (sort_dedup so r HSO) as [S1 S2]. split; auto. intros y. rewrite S2, W. split.
    - intros (i & [<-|[]] & H). auto.
    - intros H. eexists. split; [now left|]. auto.
  Qed.

  Theorem find_relative : forall ps within imports s segs, tree ps -> is_kind ps within KBoundary -> id_set so ps imports -> s <> [] -> Forall no_slash (s :: segs) ->
    exists r, pfind so pp ps within imports (join (s :: segs)) = Ok r /\ StronglySorted lt r /\
      forall y, In y r <-> exists x, starts ps within imports s x /\ walks ps x segs y.
  Proof.
    intros ps within imports s segs T KW (ps0 & ids & G0 & L0 & F0) NE NS. unfold pfind.
    assert (HJ : exists c t, join (s :: segs) = c :: t /\ c <> 47%N).
    { inversion NS; subst. destruct s as [|c s]; [contradiction|]. assert (c <> 47%N) by (intros ->; apply H1; now left). destruct segs; cbn; eauto. }
    assert (SJ := split_join (s :: segs) ltac:(discriminate) NS). destruct HJ as (c & t & EJ & NC). rewrite EJ in *.
    destruct (boundary_item _ _ KW) as (n & e & cs0 & En & In'). assert (PG : pget ps within = Ok n) by (unfold pget; now rewrite En).
    assert (BN : is_boundary n = true) by (unfold is_boundary; now rewrite In').
    assert (FS : exists roots, find_start pp ps within imports (c :: t) = Ok (roots, segs) /\ (forall i, In i roots -> i < length ps) /\ forall x, In x roots <-> starts ps within imports s x).
    { assert (RE : find_start pp ps within imports (c :: t) =
         let? n := pget ps within in
            if negb (is_boundary n) then Panic
            else
              let? roots :=
                if str_eqb s (lit "..") then Ok (match pn_parent n with Some p => [p] | None => [] end)
                else
                  let? cs := pchildren ps within in
                  let? own := rfilter (fun n => let? nd := pget ps n in Ok (str_eqb (pn_name nd) s)) cs in
                  let? imp := set_find pp ps imports s in
                  Ok (own ++ imp) in
              Ok (roots, segs)).
      { assert (CS : match c with 47%N => true | _ => false end = false) by (clear - NC; destruct c as [|p]; auto; do 6 (destruct p as [p|p|]; try reflexivity); now contradiction NC).
        unfold find_start. rewrite SJ. clear - CS. destruct c as [|p]; auto. do 6 (destruct p as [p|p|]; try reflexivity). discriminate. }
      rewrite RE, PG. cbn [rbind]. rewrite BN. cbn [negb]. destruct (str_eqb s (lit "..")) eqn:EX.
      - apply str_eqb_eq in EX. cbn [rbind]. eexists. split; [reflexivity|].
        assert (M : forall x, In x (match pn_parent n with Some p => [p] | None => [] end) <-> starts ps within imports s x).
        { intros x. split.
          - destruct (pn_parent n) as [p|] eqn:EP; [|intros []]. intros [<-|[]]. left. split; auto. exists (kind_of n), (pn_name n), n. auto.
          - intros [(_ & k & t' & m & Em & _ & P & _)|(N & _)]; [|contradiction]. rewrite En in Em. injection Em as <-. rewrite P. now left. }
        split; auto. intros i Hi. apply M in Hi as [(_ & k & t' & H)|(N & _)]; [|contradiction]. destruct (tree_parent _ _ _ _ _ T H). apply node_lt in H. lia.
      - apply str_eqb_neq in EX. destruct (tree_children ps within T KW) as (cs & -> & I). cbn [rbind].
        rewrite (rfilter_ok _ _ (fun i => match nth_error ps i with Some n => str_eqb (pn_name n) s | None => false end)).
        2:{ intros i Hi. apply I, child_lt, nth_some in Hi as (m & E). unfold pget. now rewrite E. }
        cbn [rbind]. destruct (set_lookup so pp ps0 ps ids imports s HSO HPP L0) as (imp & E & MI & _); auto.
        rewrite E. cbn [rbind]. eexists. split; [reflexivity|].
        destruct (set_members so ps0 ids HSO L0) as (imports' & F0' & _ & MM). rewrite F0 in F0'. injection F0' as <-.
        assert (M : forall x, In x (filter (fun i => match nth_error ps i with Some n => str_eqb (pn_name n) s | None => false end) cs ++ imp) <-> starts ps within imports s x).
        { intros x. rewrite in_app_iff, filter_In, I, MI. split.
          - intros [[(k & t' & m & Em & K & P & N) Q]|[Q N]]; right; split; auto.
            + left. rewrite Em in Q. apply str_eqb_eq in Q. exists k, m. subst. auto.
            + right. split; auto. now apply MM.
          - intros [(N & _)|(_ & [(k & H)|(H1 & H2)])]; [contradiction| |].
            + left. split; [exists k, s; auto|]. destruct H as (m & -> & _ & _ & <-). now apply str_eqb_eq.
            + right. split; auto. now apply MM. }
        split; auto. intros i Hi. apply M in Hi as [(N & _)|(_ & [(k & H)|(_ & k & p & H)])]; [contradiction| |]; eapply node_lt; eauto. }
    destruct FS as (roots & FS & LR & MR). rewrite FS. cbn [rbind fst snd].
    destruct (find_steps ps segs roots T LR) as (r & E & W). rewrite E. cbn [rbind]. eexists. split; [reflexivity|].
    destruct (sort_dedup so r HSO) as [S1 S2]. split; auto. intros y. rewrite S2, W. split; intros (i & Hi & H); exists i; split; auto; now apply MR.
  Qed.

  Theorem find_kind : forall ps within imports path l, tree ps -> pfind so pp ps within imports path = Ok l -> (forall i, In i l -> i < length ps) ->
    exists ts is, find_types so pp ps within imports path = Ok ts /\ find_impls so pp ps within imports path = Ok is /\
      (forall y, In y ts <-> In y l /\ is_kind ps y KType) /\ (forall y, In y is <-> In y l /\ is_kind ps y KImpl).
  Proof.
    intros ps within imports path l T E L. unfold find_types, find_impls. rewrite E. cbn [rbind].
    rewrite (rfilter_ok _ _ (fun i => match nth_error ps i with Some n => is_type n | None => false end)).
    2:{ intros i Hi. destruct (nth_some _ ps i (L i Hi)) as (n & En). unfold pget. now rewrite En. }
    rewrite (rfilter_ok _ _ (fun i => match nth_error ps i with Some n => is_impl n | None => false end)).
    2:{ intros i Hi. destruct (nth_some _ ps i (L i Hi)) as (n & En). unfold pget. now rewrite En. }
    eexists _, _. split; [reflexivity|]. split; [reflexivity|]. split; intros y; rewrite filter_In; split; intros [H1 H2]; split; auto.
    - destruct (nth_error ps y) as [n|] eqn:En; [|discriminate]. apply is_type_kind in H2. exists (pn_parent n), (pn_name n), n. auto.
    - destruct H2 as (p & s & n & -> & K & _). now apply is_type_kind.
    - destruct (nth_error ps y) as [n|] eqn:En; [|discriminate]. apply is_impl_kind in H2. exists (pn_parent n), (pn_name n), n. auto.
    - destruct H2 as (p & s & n & -> & K & _). now apply is_impl_kind.
  Qed.
End Final.
