(** The types written next to blocks and expressions are asked for. *)
From Coq Require Import String List ZArith NArith Bool Arith Lia.
From Verif Require Import Model.Base Model.Value Model.Ast Model.Registry Model.AstGraph Spec.AstGraphSpec Spec.RegistrySpec Spec.AstNoteSpec
  Proofs.RegistryProofs Proofs.AstFlatProofs Proofs.AstExpandProofs Proofs.AstGraphProofs.
Import ListNotations.

Definition asc (g : graph) : Prop := forall e, In e (g_edges g) -> e_src e < e_dst e.
Lemma asc_child : forall g n c, asc g -> In c (children g n) -> n < c.
Proof.
  intros g n c A H. unfold children in H. apply in_map_iff in H. destruct H as (e & <- & H). apply filter_In in H.
  destruct H as [H1 H2]. apply andb_prop in H2. destruct H2 as [H2 _]. apply Nat.eqb_eq in H2. rewrite <- H2. now apply A.
Qed.
Lemma asc_grows : forall g g' f ys, asc g -> grows g g' f ys -> asc g'.
Proof.
  intros g g' f ys A (_ & E & _ & F) e I. rewrite E in I. apply in_app_or in I. destruct I as [I|I]; [auto|].
  rewrite Forall_forall in F. now apply F in I.
Qed.

Definition same (cs cs' : list chg) (n : nat) : Prop := forall c, chg_at c = n -> (In c cs <-> In c cs').
Lemma asks_same : forall ts a ob cs cs', (forall t, In (ob t) cs <-> In (ob t) cs') -> asks ts a ob cs -> asks ts a ob cs'.
Proof.
  intros ts [x|] ob cs cs' H A; cbn in *.
  - destruct A as (t & E & A). exists t. split; [auto|]. intros t'. rewrite <- A. symmetry. apply H.
  - intros t I. apply (A t). now apply H.
Qed.
Lemma asks_map : forall s a o ob cs, map_ty_tag s a = Ok o -> (forall t, In (ob t) cs <-> o = Some t) -> asks (df_types s) a ob cs.
Proof.
  intros s [x|] o ob cs E H; cbn in *.
  - destruct (get_type (df_types s) (tg_str x)) as [t|]; [|discriminate]. injection E as <-. exists t. split; [auto|]. intros t'. rewrite H. split; congruence.
  - injection E as <-. intros t I. apply H in I. discriminate.
Qed.

Section Mono.
Variables (ts : types) (g g' : graph) (cs cs' : list chg) (lo : nat).
Hypothesis A : asc g.
Hypothesis C : forall n, lo <= n -> n < sz g -> children g' n = children g n.
Hypothesis K : forall n x, node g n = Some x -> node g' n = Some x.
Hypothesis S : forall n, lo <= n -> n < sz g -> same cs cs' n.
Hypothesis B : bound g.

Lemma noted_mono_k : forall k,
  (forall e n, size_expr e <= k -> lo <= n -> noted ts g cs n e -> noted ts g' cs' n e) /\
  (forall b n, size_block b <= k -> lo <= n -> noted_block ts g cs n b -> noted_block ts g' cs' n b).
Proof.
  assert (BD : forall n x, node g n = Some x -> n < sz g) by (intros n x N; apply nth_error_Some; unfold node in N; congruence).
  assert (CB : forall n c, In c (children g n) -> c < sz g).
  { intros n c I. unfold children in I. apply in_map_iff in I. destruct I as (e & <- & I). apply filter_In in I. apply B, I. }
  induction k as [|k [IHe IHb]].
  - split; [intros [? ? ?] n L; cbn in L; lia|intros b n L; pose proof (size_block_terms b); lia].
  - split.
    + intros e n L Ln H. inversion H as [n0 e0 Hn Hi Ho Hc]; subst. pose proof (BD _ _ Hn) as Bn. constructor; [auto| | |].
      * intros t I. apply (Hi t). apply (S n Ln Bn); auto.
      * eapply asks_same; [|exact Ho]. intros t. now apply (S n Ln Bn).
      * rewrite C by auto. apply (Forall2_impl_in _ _ _ _ _ _ Hc). intros o b Io Ib Hb. apply IHb; [|apply (asc_child g) in Io; auto; lia|auto].
        rewrite size_expr_eq in L. apply in_blocks_size in Ib. lia.
    + intros b n L Ln H. inversion H as [n0 b0 t Hn Hop Hi Ho Hc]; subst. pose proof (BD _ _ Hn) as Bn. apply noted_block_intro with t; auto.
      * eapply asks_same; [|exact Hi]. intros t'. now apply (S n Ln Bn).
      * eapply asks_same; [|exact Ho]. intros t'. now apply (S n Ln Bn).
      * rewrite C by auto. apply (Forall2_impl_in _ _ _ _ _ _ Hc). intros a t' Ia It Ht. pose proof (CB _ _ Ia). apply (asc_child g) in Ia; auto. inversion Ht; subst.
        -- apply noted_sub. apply IHe; [|lia|auto]. apply in_terms_size in It. pose proof (size_block_terms b). lia.
        -- apply noted_other; [auto| |].
           { intros x Nx. destruct (node g a) as [y|] eqn:Ny; [|apply nth_error_None in Ny; lia]. rewrite (K _ _ Ny) in Nx. injection Nx as ->. now apply (H2 x). }
           intros c I. intros E. apply (H3 c); [|auto]. apply (S a); auto. lia.
Qed.
Lemma noted_mono : forall e n, lo <= n -> noted ts g cs n e -> noted ts g' cs' n e.
Proof. intros e n. apply (proj1 (noted_mono_k (size_expr e))). lia. Qed.
Lemma noted_block_mono : forall b n, lo <= n -> noted_block ts g cs n b -> noted_block ts g' cs' n b.
Proof. intros b n. apply (proj2 (noted_mono_k (size_block b))). lia. Qed.
End Mono.

Section S.
Variable s : defs.
Notation ts := (df_types s).

Lemma in_opt : forall f o c, In c (opt_chg f o) <-> exists t, o = Some t /\ c = f t.
Proof.
  intros f [t|] c; cbn.
  - split; [intros [<-|[]]; eauto|]. intros (t' & E & ->). left. congruence.
  - split; [intros []|]. intros (t & E & _). discriminate.
Qed.

Lemma add_blocks_notes : forall bs g root g' q cs, add_blocks s g root bs = Ok (g', q, cs) -> root < sz g -> bound g ->
  exists os, children g' root = children g root ++ os /\ NoDup os /\ (forall o, In o os -> sz g <= o < sz g') /\ (forall c, In c cs -> In (chg_at c) os) /\
  Forall2 (fun n b => asks ts (blk_in b) (ObligeInput n) cs /\ asks ts (blk_out b) (ObligeOutput n) cs) os bs.
Proof.
  induction bs as [|b bs IH]; intros g root g' q cs H Hr B; cbn [add_blocks] in H.
  - injection H as <- <- <-. exists []. rewrite app_nil_r. split; [auto|]. split; [constructor|]. split; [intros o []|]. split; [intros c []|constructor].
  - destruct (blk_op b) as [t| |] eqn:Eop; cbn [rbind] in H; try discriminate.
    cbn [add_node] in H.
    set (g1 := add_edge (Graph (g_nodes g ++ [NOp t]) (g_edges g)) root (sz g) RNormal) in *.
    destruct (map_ty_tag s (blk_in b)) as [i1| |] eqn:Ei; cbn [rbind] in H; try discriminate.
    destruct (map_ty_tag s (blk_out b)) as [o1| |] eqn:Eo; cbn [rbind] in H; try discriminate.
    destruct (add_terms s g1 (sz g) (blk_terms b)) as [[g2 q2]| |] eqn:E2; cbn [rbind fst snd] in H; try discriminate.
    destruct (add_blocks s g2 root bs) as [[[g3 q3] c3]| |] eqn:E3; cbn [rbind fst snd] in H; try discriminate.
    injection H as <- <- <-.
    assert (S1 : sz g1 = S (sz g)) by (cbn; rewrite app_length; cbn; lia).
    destruct (add_terms_spec s _ _ _ _ _ E2 ltac:(lia)) as (A1 & A2 & _).
    assert (G1 : grows g g1 (fun n => n = root) [Edge root (sz g) RNormal]).
    { split; [exists [NOp t]; reflexivity|]. split; [reflexivity|]. split.
      - rewrite S1. replace (S (sz g) - sz g) with 1 by lia. reflexivity.
      - constructor; [|constructor]. cbn. auto. }
    assert (B1 := grows_bound _ _ _ _ B G1). assert (B2 := grows_bound _ _ _ _ B1 A2).
    destruct (add_blocks_spec s _ _ _ _ _ _ E3 ltac:(lia) B2) as (ys & _ & G3 & _). pose proof (grows_size _ _ _ _ G3) as S3.
    destruct (IH _ _ _ _ _ E3 ltac:(lia) B2) as (os & C1 & C2 & C3 & C4 & C5).
    exists (sz g :: os). split; [|split; [|split; [|split]]].
    + rewrite C1, (grows_children_same _ _ _ _ root A2) by lia. rewrite (grows_children_new _ _ _ _ root G1). cbn [filter e_src]. rewrite Nat.eqb_refl.
      rewrite <- app_assoc. reflexivity.
    + constructor; [|auto]. intros I. apply C3 in I. lia.
    + intros o [<-|I]; [lia|]. apply C3 in I. lia.
    + intros c I. apply in_app_or in I. destruct I as [I|I]; [apply in_opt in I; destruct I as (t' & _ & ->); now left|].
      apply in_app_or in I. destruct I as [I|I]; [apply in_opt in I; destruct I as (t' & _ & ->); now left|]. right. auto.
    + assert (N3 : forall c, In c c3 -> sz g2 <= chg_at c) by (intros c I; apply C4, C3 in I; lia).
      constructor.
      * split; eapply asks_map; eauto; intros t'; rewrite !in_app_iff, !in_opt; split.
        -- intros [(t1 & E & Q)|[(t1 & E & Q)|I]]; [congruence|discriminate|]. apply N3 in I. cbn in I. lia.
        -- intros ->. left. eauto.
        -- intros [(t1 & E & Q)|[(t1 & E & Q)|I]]; [discriminate|congruence|]. apply N3 in I. cbn in I. lia.
        -- intros ->. right. left. eauto.
      * apply (Forall2_impl_in _ _ _ _ _ _ C5). intros o b' Io _ (P1 & P2). apply C3 in Io.
        split; (eapply asks_same; [|eassumption]); intros t'; rewrite !in_app_iff, !in_opt; (split; [auto|]).
        -- intros [(t1 & E & Q)|[(t1 & E & Q)|I]]; [|discriminate|exact I]. assert (o = sz g) by congruence. lia.
        -- intros [(t1 & E & Q)|[(t1 & E & Q)|I]]; [discriminate| |exact I]. assert (o = sz g) by congruence. lia.
Qed.

Lemma flat_loop_notes : forall fuel g q cs g' cs', flat_loop s fuel g q cs = Ok (g', cs') -> bound g -> asc g -> NoDup (qroots q) ->
  (forall n, In n (qroots q) -> n < sz g /\ children g n = []) ->
  exists new, cs' = cs ++ new /\ (forall c, In c new -> In (chg_at c) (qroots q) \/ sz g <= chg_at c < sz g') /\
  forall n bs o, In (n, bs, o) q -> (forall t, ~ In (ObligeInput n t) new) /\ (forall t, In (ObligeOutput n t) new <-> o = Some t) /\
    Forall2 (noted_block ts g' new) (children g' n) bs.
Proof.
  induction fuel as [|fuel IH]; intros g q cs g' cs' H B AS ND HR; (destruct q as [|[[root bs] o] q]; cbn [flat_loop] in H; [|try discriminate]).
  1,2: injection H as <- <-; exists []; rewrite app_nil_r; split; [auto|]; split; [intros c []|intros n bs o []].
  destruct (add_blocks s g root bs) as [[[g1 q1] c1]| |] eqn:E1; cbn [rbind fst snd] in H; try discriminate.
  assert (HR0 : root < sz g) by (apply HR; now left).
  destruct (add_blocks_spec s _ _ _ _ _ _ E1 HR0 B) as (ys & os & A1 & A2 & A3 & A4 & A5 & A6 & _).
  destruct (add_blocks_notes _ _ _ _ _ _ E1 HR0 B) as (os' & D1 & D2 & D3 & D4 & D5).
  assert (os' = os) as -> by (rewrite A2 in D1; now apply app_inv_head in D1).
  assert (B1 := grows_bound _ _ _ _ B A1). assert (S1 := grows_size _ _ _ _ A1). assert (AS1 := asc_grows _ _ _ _ AS A1).
  inversion ND as [|x l NI ND']; subst.
  assert (RA : qroots (q ++ q1) = qroots q ++ qroots q1) by (unfold qroots; apply map_app).
  assert (CH : forall n, In n (qroots (q ++ q1)) -> n < sz g1 /\ children g1 n = []).
  { intros n I. rewrite RA in I. apply in_app_or in I. destruct I as [I|I].
    - destruct (HR n (or_intror I)) as [L C]. split; [lia|]. rewrite (grows_children_same _ _ _ _ n A1 L); [auto|]. intros ->. now apply NI.
    - destruct (A6 _ I) as [L K]. split; [lia|]. rewrite (grows_children_new _ _ _ _ n A1), (children_none g n B) by lia.
      rewrite filter_none; [reflexivity|]. intros e Ie. apply Nat.eqb_neq. auto. }
  assert (ND1 : NoDup (qroots (q ++ q1))).
  { rewrite RA. assert (forall l m : list nat, NoDup l -> NoDup m -> (forall x, In x l -> ~ In x m) -> NoDup (l ++ m)) as NDA.
    { clear. induction l as [|x l IH]; intros m H1 H2 H3; [auto|]. inversion H1; subst. cbn. constructor.
      - intros I. apply in_app_or in I. destruct I; [tauto|]. apply (H3 x); cbn; auto.
      - apply IH; auto. intros y I. apply H3. now right. }
    apply NDA; auto. intros x I1 I2. destruct (HR x (or_intror I1)). apply A6 in I2. lia. }
  destruct (IH _ _ _ _ _ H B1 AS1 ND1 CH) as (new & -> & P1 & P2).
  destruct (flat_loop_spec s _ _ _ _ _ _ H B1 ND1 CH) as (ys2 & G2 & _ & _).
  assert (B2 := grows_bound _ _ _ _ B1 G2). assert (AS2 := asc_grows _ _ _ _ AS1 G2). assert (S2 := grows_size _ _ _ _ G2).
  exists (opt_chg (ObligeOutput root) o ++ c1 ++ new). split; [now rewrite <- !app_assoc|].
  assert (Nn : forall n, n < sz g1 -> ~ In n (qroots (q ++ q1)) -> forall c, In c new -> chg_at c <> n).
  { intros n L N c I E. apply P1 in I. destruct I as [I|I]; [subst; auto|lia]. }
  assert (NC : forall n, ~ In n os -> forall c, In c c1 -> chg_at c <> n) by (intros n N c I E; subst; now apply N, D4).
  assert (OS : forall o', In o' os -> exists t, node g1 o' = Some (NOp t) /\ ~ In o' (qroots q1)).
  { intros p I. clear -A3 I. induction A3 as [|x y l m (t & _ & Nx & Q & _) F IH]; [destruct I|]. destruct I as [->|I]; eauto. }
  assert (LO : forall n, sz g1 <= n -> same new (opt_chg (ObligeOutput root) o ++ c1 ++ new) n).
  { intros n L c E. rewrite !in_app_iff, in_opt. split; [auto|]. intros [(t & _ & ->)|[I|I]]; [cbn in E; lia| |auto].
    apply D4, D3 in I. lia. }
  (* a waiting expression *)
  assert (W : forall n bs' o', In (n, bs', o') (q ++ q1) -> n <> root -> ~ In n os ->
    (forall t, ~ In (ObligeInput n t) (opt_chg (ObligeOutput root) o ++ c1 ++ new)) /\
    (forall t, In (ObligeOutput n t) (opt_chg (ObligeOutput root) o ++ c1 ++ new) <-> o' = Some t) /\
    Forall2 (noted_block ts g' (opt_chg (ObligeOutput root) o ++ c1 ++ new)) (children g' n) bs').
  { intros n bs' o' I NR NO. destruct (P2 n bs' o' I) as (Q1 & Q2 & Q3). split; [|split].
    - intros t. rewrite !in_app_iff, in_opt. intros [(t' & _ & E)|[J|J]]; [discriminate| |now apply (Q1 t)].
      now apply (NC n NO) in J.
    - intros t. rewrite !in_app_iff, in_opt, <- Q2. split; [|auto]. intros [(t' & _ & E)|[J|J]]; [congruence| |auto].
      now apply (NC n NO) in J.
    - apply (Forall2_impl_in _ _ _ _ _ _ Q3). intros p b Ip Ib Hb. apply (noted_block_mono ts g' g' new _ (sz g1)); auto.
      assert (IR : In n (qroots (q ++ q1))) by (unfold qroots; apply in_map_iff; exists (n, bs', o'); auto). destruct (CH n IR) as (Ln & Cn).
      rewrite (grows_children_new _ _ _ _ n G2), Cn in Ip. cbn [app] in Ip. apply in_map_iff in Ip. destruct Ip as (e & <- & Ie). apply filter_In in Ie.
      destruct G2 as (_ & _ & DD & _). assert (X : In (e_dst e) (map e_dst ys2)) by (now apply in_map). rewrite DD in X. apply in_seq in X. lia. }
  split.
  - intros c I. rewrite !in_app_iff, in_opt in I. destruct I as [(t & _ & ->)|[I|I]].
    + left. now left.
    + right. apply D4, D3 in I. lia.
    + apply P1 in I. rewrite RA in I. destruct I as [I|I]; [|right; lia]. apply in_app_or in I. destruct I as [I|I]; [left; now right|].
      apply A6 in I. right. lia.
  - intros n bs' o' [I|I].
    2: { apply W; [apply in_or_app; now left| |].
         - intros ->. apply NI. unfold qroots. apply in_map_iff. exists (root, bs', o'). auto.
         - intros J. apply D3 in J. assert (IR : In n (qroots q)) by (unfold qroots; apply in_map_iff; exists (n, bs', o'); auto). destruct (HR n (or_intror IR)). lia. }
    injection I as <- <- <-.
    assert (RQ : ~ In root (qroots (q ++ q1))).
    { rewrite RA. intros I. apply in_app_or in I. destruct I as [I|I]; [auto|]. apply A6 in I. lia. }
    assert (RO : ~ In root os) by (intros I; apply D3 in I; lia).
    split; [|split].
    + intros t. rewrite !in_app_iff, in_opt. intros [(t' & _ & E)|[J|J]]; [discriminate|now apply (NC root RO) in J|]. now apply (Nn root) in J; [|lia|].
    + intros t. rewrite !in_app_iff, in_opt. split; [|intros ->; left; eauto]. intros [(t' & -> & E)|[J|J]]; [congruence|now apply (NC root RO) in J|]. now apply (Nn root) in J; [|lia|].
    + assert (C' : children g' root = os).
      { rewrite (grows_children_same _ _ _ _ root G2); [rewrite A2; destruct (HR root (or_introl eq_refl)) as [_ ->]; reflexivity|lia|auto]. }
      rewrite C'. assert (A35 : Forall2 (fun n b => pre_block s g1 q1 n b /\ asks ts (blk_in b) (ObligeInput n) c1 /\ asks ts (blk_out b) (ObligeOutput n) c1) os bs).
      { clear -A3 D5. induction A3; inversion D5; subst; constructor; auto. }
      apply (Forall2_impl_in _ _ _ _ _ _ A35). intros p b Ip Ib ((t & R1 & R2 & R3 & R4) & R5 & R6).
      pose proof (D3 _ Ip) as Lp.
      assert (PQ : ~ In p (qroots (q ++ q1))).
      { rewrite RA. intros I. apply in_app_or in I. destruct I as [I|I]; [|auto]. destruct (HR p (or_intror I)). lia. }
      assert (SP : same c1 (opt_chg (ObligeOutput root) o ++ c1 ++ new) p).
      { intros c E. rewrite !in_app_iff, in_opt. split; [auto|]. intros [(t' & _ & ->)|[J|J]]; [cbn in E; lia|auto|]. exfalso. apply (Nn p) in J; auto. lia. }
      apply noted_block_intro with t; auto.
      * eapply grows_node; eauto.
      * eapply asks_same; [|exact R5]. intros t'. now apply SP.
      * eapply asks_same; [|exact R6]. intros t'. now apply SP.
      * rewrite (grows_children_same _ _ _ _ p G2); [|lia|auto]. apply (Forall2_impl_in _ _ _ _ _ _ R4). intros a t' Ia It P. unfold pre_term in P.
        pose proof (asc_child g1 _ _ AS1 Ia) as La.
        assert (La' : a < sz g1).
        { unfold children in Ia. apply in_map_iff in Ia. destruct Ia as (e & <- & Ia). apply filter_In in Ia. apply B1, Ia. }
        assert (AO : forall nd, node g1 a = Some nd -> (forall t, nd <> NOp t) -> ~ In a os).
        { intros nd N Q I. destruct (OS a I) as (t1 & N1 & _). rewrite N in N1. injection N1 as ->. now apply (Q t1). }
        assert (OT : forall nd, (forall e, t' <> TArg (AExpr e)) -> node g1 a = Some nd -> (forall t, nd <> NOp t /\ nd <> NExpr t) -> ~ In a (qroots q1) ->
                     noted_term ts g' (opt_chg (ObligeOutput root) o ++ c1 ++ new) a t').
        { intros nd NE N Q NQ. apply noted_other; [auto| |].
          { intros x Nx. rewrite (grows_node _ _ _ _ _ _ G2 N) in Nx. injection Nx as ->. now apply (proj2 (Q x)). }
          intros c I. rewrite !in_app_iff, in_opt in I. destruct I as [(t1 & _ & ->)|[I|I]].
          - cbn. lia.
          - apply NC; auto. eapply AO; [eauto|intros; apply Q].
          - apply Nn; auto. rewrite RA. intros J. apply in_app_or in J. destruct J as [J|J]; [|auto]. destruct (HR a (or_intror J)). lia. }
        destruct t' as [[x|z x|c x|x|e]|x];
          try (destruct P as [(nd & Q1 & Q2) Q3]; apply (OT nd); [intros ? ?; discriminate|exact Q2|cbn in Q1; injection Q1 as <-; split; discriminate|exact Q3]).
        -- destruct P as [(nd & Q1 & Q2) Q3]. apply (OT nd); [intros ? ?; discriminate|exact Q2| |exact Q3].
           apply term_node_pound in Q1. destruct Q1 as (pp & -> & _). split; discriminate.
        -- destruct P as (Q1 & o' & Q2 & Q3). destruct (W a (ex_blocks e) o') as (W1 & W2 & W3).
           { apply in_or_app. now right. } { lia. } { eapply AO; [exact Q1|intros ? ?; discriminate]. }
           apply noted_sub. constructor; auto; [eapply grows_node; eauto|eapply asks_map; eauto].
Qed.

Lemma flatten_notes : forall g e cs root g' cs', flatten_expr s g e cs = Ok (root, g', cs') -> bound g -> asc g -> (forall c, In c cs -> chg_at c < sz g) ->
  asc g' /\ noted ts g' cs' root e /\ exists new, cs' = cs ++ new /\ forall c, In c new -> sz g <= chg_at c < sz g'.
Proof.
  intros g e cs root g' cs' H B AS HC. unfold flatten_expr in H. cbn [add_node] in H.
  set (g1 := Graph (g_nodes g ++ [NExpr (ex_tag e)]) (g_edges g)) in *.
  destruct (map_ty_tag s (ex_out e)) as [o| |] eqn:Eo; cbn [rbind] in H; try discriminate.
  destruct (flat_loop s (size_expr e) g1 [(sz g, ex_blocks e, o)] cs) as [[g2 c2]| |] eqn:E; cbn [rbind fst snd] in H; try discriminate.
  injection H as <- <- <-.
  assert (S1 : sz g1 = S (sz g)) by (cbn; rewrite app_length; cbn; lia).
  assert (B1 : bound g1). { intros x I. specialize (B x I). lia. }
  assert (ND : NoDup (qroots [(sz g, ex_blocks e, o)])) by (constructor; [intros []|constructor]).
  assert (HR : forall n, In n (qroots [(sz g, ex_blocks e, o)]) -> n < sz g1 /\ children g1 n = []).
  { intros n [<-|[]]. cbn [fst]. split; [lia|]. change (children g1 (sz g)) with (children g (sz g)). apply (children_none g _ B). lia. }
  destruct (flat_loop_spec s _ _ _ _ _ _ E B1 ND HR) as (ys & G & _ & _). pose proof (grows_size _ _ _ _ G) as S2.
  destruct (flat_loop_notes _ _ _ _ _ _ E B1 AS ND HR) as (new & -> & P1 & P2).
  assert (AS2 : asc g2) by (eapply asc_grows; [|exact G]; exact AS). assert (B2 := grows_bound _ _ _ _ B1 G).
  assert (SM : forall n, sz g <= n -> same new (cs ++ new) n).
  { intros n L c En. rewrite in_app_iff. split; [auto|]. intros [I|I]; [apply HC in I; lia|auto]. }
  split; [exact AS2|]. split.
  - destruct (P2 (sz g) (ex_blocks e) o (or_introl eq_refl)) as (Q1 & Q2 & Q3). constructor.
    + eapply grows_node; [exact G|]. unfold node. cbn. rewrite nth_error_app2, Nat.sub_diag by lia. reflexivity.
    + intros t I. apply (Q1 t). apply (SM (sz g)); auto.
    + eapply asks_map; [exact Eo|]. intros t. rewrite <- Q2. symmetry. now apply (SM (sz g)).
    + apply (Forall2_impl_in _ _ _ _ _ _ Q3). intros p b Ip _ Hb. apply (noted_block_mono ts g2 g2 new _ (sz g)); auto.
      apply (asc_child g2) in Ip; auto. lia.
  - exists new. split; [auto|]. intros c I. apply P1 in I. destruct I as [[I|[]]|I]; cbn in *; lia.
Qed.

(** ** Expansion *)
Definition fine (st : xstate) : Prop :=
  inv (x_g st) /\ ids_ok (x_g st) (x_ids st) /\ (forall c, In c (x_chgs st) -> chg_at c < sz (x_g st)) /\
  forall o k c, In (k, c) (keyed (x_g st) o) -> exists t i ks, node (x_g st) o = Some (NOp t) /\ In (tg_str t, ks) (df_impls s) /\ In (k, i) (registered ks) /\
    shows_impl (x_g st) c i /\ noted_impl ts (x_g st) (x_chgs st) c i /\ forall ch, In ch (x_chgs st) -> chg_at ch <> c.

(** The graph grew, and only new nodes were annotated. *)
Definition newer (st st' : xstate) : Prop :=
  ext (x_g st) (x_g st') /\ exists new, x_chgs st' = x_chgs st ++ new /\ forall c, In c new -> sz (x_g st) <= chg_at c < sz (x_g st').
Lemma newer_refl : forall st, newer st st.
Proof. intros st. split; [apply ext_refl|]. exists []. rewrite app_nil_r. split; [auto|intros c []]. Qed.
Lemma newer_trans : forall a b c, newer a b -> newer b c -> newer a c.
Proof.
  intros a b c (E1 & n1 & C1 & N1) (E2 & n2 & C2 & N2). split; [eapply ext_trans; eauto|]. exists (n1 ++ n2). rewrite C2, C1, <- app_assoc. split; [auto|].
  pose proof (ext_size _ _ E1). pose proof (ext_size _ _ E2). intros x I. apply in_app_or in I. destruct I as [I|I]; [apply N1 in I|apply N2 in I]; lia.
Qed.
Lemma noted_newer : forall st st' n e, newer st st' -> inv (x_g st) -> noted ts (x_g st) (x_chgs st) n e -> noted ts (x_g st') (x_chgs st') n e.
Proof.
  intros st st' n e (E & new & C & N) I H. apply (noted_mono ts (x_g st) (x_g st') (x_chgs st) (x_chgs st') 0); auto; try lia.
  - intros x Ix. now apply (i_ord _ I) in Ix.
  - intros m _ L. now apply ext_children.
  - intros m x. now apply ext_node_some.
  - intros m _ L c Ec. rewrite C, in_app_iff. split; [auto|]. intros [J|J]; [auto|]. apply N in J. lia.
  - now apply inv_bound.
Qed.
Lemma noted_impl_newer : forall st st' c i, newer st st' -> inv (x_g st) -> c < sz (x_g st) -> noted_impl ts (x_g st) (x_chgs st) c i -> noted_impl ts (x_g st') (x_chgs st') c i.
Proof.
  intros st st' c [l f|d] N I L H; [exact H|]. destruct H as (x & C & H). exists x. split; [|eapply noted_newer; eauto].
  rewrite (ext_children _ _ c (proj1 N) L). exact C.
Qed.

Lemma expand_entry_notes : forall op t ks st e b st', expand_entry s op t st e = Ok (b, st') -> fine st -> node (x_g st) op = Some (NOp t) ->
  In (tg_str t, ks) (df_impls s) -> In e (registered ks) -> newer st st' /\ fine st'.
Proof.
  intros op t ks st [key i] b st' H (I & OK & HC & HK) N Iks Ie.
  destruct (expand_entry_spec s _ _ _ _ _ _ H I OK N) as ((A1 & A2 & A3 & A4 & A5 & A6 & A7) & A8).
  destruct b; [|rewrite (A8 eq_refl); split; [apply newer_refl|exact (conj I (conj OK (conj HC HK)))]].
  destruct A7 as (KO & SI). pose proof (ext_size _ _ A1) as SZ.
  assert (AS : asc (x_g st)) by (intros x Ix; now apply (i_ord _ I) in Ix).
  assert (AS' : asc (x_g st')) by (intros x Ix; now apply (i_ord _ A2) in Ix).
  assert (X : newer st st' /\ noted_impl ts (x_g st') (x_chgs st') (sz (x_g st)) i /\ (forall c, In c (x_chgs st') -> chg_at c <> sz (x_g st)) /\ sz (x_g st) < sz (x_g st')).
  { cbn [snd] in SI. unfold expand_entry in H. destruct i as [l f|d].
    - cbn [add_node] in H. injection H as <-. cbn [x_g x_chgs] in *. split; [|split; [exact Coq.Init.Logic.I|split]].
      + split; [exact A1|]. exists []. rewrite app_nil_r. split; [auto|intros c []].
      + intros c Ic E. apply HC in Ic. lia.
      + destruct SI as (t' & SI). apply nth_error_Some. unfold node in SI. congruence.
    - set (oid := match key with Some ty => _ | None => None end) in H.
      destruct (match oid with Some id => detect (x_ids st) (x_g st) op id | None => false end); [discriminate|].
      destruct (rmapM (param_from_ast s) (d_params d)) as [ps| |] eqn:Ep; cbn [rbind] in H; try discriminate.
      cbn [add_node] in H.
      set (g1 := Graph (g_nodes (x_g st) ++ [NDef (ex_tag (d_expr d)) ps]) (g_edges (x_g st))) in *.
      destruct (flatten_expr s g1 (d_expr d) (x_chgs st)) as [[[root g2] c2]| |] eqn:Ef; cbn [rbind fst snd] in H; try discriminate.
      injection H as <-. cbn [x_g x_chgs] in *.
      set (g3 := add_edge g2 (sz (x_g st)) root RNormal) in *.
      assert (S1 : sz g1 = S (sz (x_g st))) by (cbn; rewrite app_length; cbn; lia).
      assert (B1 : bound g1). { intros x Ix. apply (inv_bound (x_g st) I) in Ix. lia. }
      assert (HC1 : forall c, In c (x_chgs st) -> chg_at c < sz g1) by (intros c Ic; apply HC in Ic; lia).
      destruct (flatten_spec s _ _ _ _ _ _ Ef B1) as (-> & B2 & Ex2 & Sh & _). pose proof (ext_size _ _ Ex2) as S2.
      destruct (flatten_notes _ _ _ _ _ _ Ef B1 AS HC1) as (AS2 & NO & new & -> & HN).
      match goal with |- newer st ?st1 /\ _ => set (st2 := st1) in * end.
      assert (N4 : g_nodes (x_g st2) = g_nodes g2) by (subst st2; cbn [x_g]; rewrite !link_terms_eq; reflexivity).
      assert (L4 : exists zs, g_edges (x_g st2) = g_edges g3 ++ zs /\ forall z, In z zs -> e_rel z <> RNormal).
      { subst st2. cbn [x_g]. rewrite !link_terms_eq. cbn [g_edges add_edge]. eexists. rewrite <- !app_assoc. split; [reflexivity|].
        intros z Iz. rewrite !in_app_iff in Iz. destruct Iz as [[<-|[]]|[Iz|Iz]]; [cbn; discriminate| |];
          apply lk_in in Iz; destruct Iz as (_ & _ & j & ->); discriminate. }
      assert (C4 : forall n, sz g1 <= n -> children (x_g st2) n = children g2 n).
      { intros n L. destruct L4 as (zs & EZ & NZ). unfold children. rewrite EZ. cbn [g3 add_edge g_edges]. rewrite !filter_app, (filter_none _ _ zs).
        - cbn [filter e_src]. assert (Nat.eqb (sz (x_g st)) n = false) as -> by (apply Nat.eqb_neq; lia). cbn [andb]. now rewrite !app_nil_r.
        - intros z Iz. apply NZ in Iz. destruct (e_rel z); [congruence| |]; apply andb_false_r. }
      assert (SZ2 : sz (x_g st2) = sz g2) by now rewrite N4.
      split; [|split; [|split]].
      + split; [exact A1|]. exists new. split; [reflexivity|]. intros c Ic. apply HN in Ic. lia.
      + cbn [noted_impl]. destruct SI as (_ & x & Cx & _). exists x. split; [exact Cx|].
        assert (x = sz g1) as ->.
        { destruct L4 as (zs & EZ & NZ). assert (J : In (sz g1) (children (x_g st2) (sz (x_g st)))).
          { unfold children. apply in_map_iff. exists (Edge (sz (x_g st)) (sz g1) RNormal). split; [reflexivity|]. apply filter_In. split.
            - rewrite EZ. apply in_or_app. left. cbn [g3 add_edge g_edges]. apply in_or_app. right. now left.
            - cbn [e_src e_rel]. now rewrite Nat.eqb_refl. }
          cbn [st2 x_g] in J. rewrite Cx in J. destruct J as [J|[]]. auto. }
        apply (noted_mono ts g2 (x_g st2) (x_chgs st ++ new) (x_chgs st2) (sz g1)); auto.
        * intros n x. unfold node. now rewrite N4.
        * intros n _ _ c _. reflexivity.
      + intros c Ic E. cbn [st2 x_chgs] in Ic. apply in_app_or in Ic. destruct Ic as [Ic|Ic]; [apply HC in Ic; lia|apply HN in Ic; lia].
      + change (sz (x_g st) < sz (x_g st2)). lia. }
  destruct X as (NW & NI & NC & LT). split; [exact NW|]. split; [exact A2|]. split; [exact A3|]. destruct NW as (_ & new & EN & HN). split.
  - intros c Ic. rewrite EN in Ic. apply in_app_or in Ic. destruct Ic as [Ic|Ic]; [apply HC in Ic; lia|now apply HN].
  - intros o k c J. assert (OLD : In (k, c) (keyed (x_g st) o) -> exists t0 i0 ks0, node (x_g st') o = Some (NOp t0) /\ In (tg_str t0, ks0) (df_impls s) /\
        In (k, i0) (registered ks0) /\ shows_impl (x_g st') c i0 /\ noted_impl ts (x_g st') (x_chgs st') c i0 /\ forall ch, In ch (x_chgs st') -> chg_at ch <> c).
    { intros J0. destruct (HK o k c J0) as (t0 & i0 & ks0 & Q1 & Q2 & Q3 & Q4 & Q5 & Q6). exists t0, i0, ks0.
      assert (Lc : c < sz (x_g st)) by (apply keyed_in in J0; apply (i_ord _ I) in J0; cbn in J0; lia).
      split; [eapply ext_node_some; eauto|]. split; [auto|]. split; [auto|]. split; [eapply shows_impl_ext; eauto|]. split.
      - apply (noted_impl_newer st st'); auto. split; [exact A1|eauto].
      - intros ch Ich. rewrite EN in Ich. apply in_app_or in Ich. destruct Ich as [Ich|Ich]; [auto|apply HN in Ich; lia]. }
    destruct (Nat.eq_dec o op) as [->|ne]; [|rewrite A5 in J by auto; auto].
    rewrite KO in J. apply in_app_or in J. destruct J as [J|[J|[]]]; [auto|]. injection J as <- <-. cbn [fst] in *.
    exists t, i, ks. split; [eapply ext_node_some; eauto|]. split; [auto|]. split; [auto|]. split; [exact SI|]. split; [exact NI|exact NC].
Qed.

Lemma expand_entries_notes : forall es op t ks st b st', expand_entries s op t st es = Ok (b, st') -> fine st -> node (x_g st) op = Some (NOp t) ->
  In (tg_str t, ks) (df_impls s) -> incl es (registered ks) -> newer st st' /\ fine st'.
Proof.
  induction es as [|e es IH]; intros op t ks st b st' H F N Iks HI; cbn [expand_entries] in H.
  - injection H as <- <-. split; [apply newer_refl|auto].
  - destruct (expand_entry s op t st e) as [[b1 st1]| |] eqn:E1; cbn [rbind fst snd] in H; try discriminate.
    destruct (expand_entries s op t st1 es) as [[b2 st2]| |] eqn:E2; cbn [rbind fst snd] in H; try discriminate.
    injection H as <- <-. destruct (expand_entry_notes _ _ ks _ _ _ _ E1 F N Iks) as (N1 & F1); [apply HI; now left|].
    destruct (IH op t ks st1 b2 st2 E2 F1) as (N2 & F2); auto; [eapply ext_node_some; [apply N1|auto]|intros x Ix; apply HI; now right|].
    split; [eapply newer_trans; eauto|auto].
Qed.
Lemma expand_ops_notes : forall ops st b st', expand_ops s ops st = Ok (b, st') -> fine st -> newer st st' /\ fine st'.
Proof.
  induction ops as [|op ops IH]; intros st b st' H F; cbn [expand_ops] in H.
  - injection H as <- <-. split; [apply newer_refl|auto].
  - destruct (expand_def s op st) as [[b1 st1]| |] eqn:E1; cbn [rbind fst snd] in H; try discriminate.
    destruct (expand_ops s ops st1) as [[b2 st2]| |] eqn:E2; cbn [rbind fst snd] in H; try discriminate.
    injection H as <- <-. unfold expand_def in E1.
    destruct (node (x_g st) op) as [[t|? ?|? ?|?|?|? ?|? ?|?|?]|] eqn:N; try discriminate.
    destruct (alookup str_eqb (tg_str t) (df_impls s)) as [k|] eqn:Ek; [|discriminate].
    destruct (expand_entries_notes _ _ _ k _ _ _ E1 F N) as (N1 & F1); [now apply alookup_in_str|rewrite (registered_iter k); apply incl_refl|].
    destruct (IH _ _ _ E2 F1) as (N2 & F2). split; [eapply newer_trans; eauto|auto].
Qed.
Lemma expand_loop_notes : forall more st st', expand_loop s more st = Ok st' -> fine st -> newer st st' /\ fine st'.
Proof.
  induction more as [|more IH]; intros st st' H F; cbn [expand_loop] in H;
    (destruct (expand_defs s st) as [[b st1]| |] eqn:E; cbn [rbind fst snd] in H; try discriminate);
    unfold expand_defs in E; destruct (expand_ops_notes _ _ _ _ E F) as (N1 & F1); destruct b.
  - discriminate.
  - injection H as <-. auto.
  - destruct (IH _ _ H F1) as (N2 & F2). split; [eapply newer_trans; eauto|auto].
  - injection H as <-. auto.
Qed.

Theorem init_notes : forall e g cs, init s e = Ok (g, cs) -> noted ts g cs 0 e /\ (forall c, In c cs -> chg_at c < sz g) /\
  forall o k c, In (k, c) (keyed g o) -> exists t i ks, node g o = Some (NOp t) /\ In (tg_str t, ks) (df_impls s) /\ In (k, i) (registered ks) /\
    shows_impl g c i /\ noted_impl ts g cs c i /\ forall ch, In ch cs -> chg_at ch <> c.
Proof.
  intros e g cs H. unfold init in H. destruct (flatten_expr s (Graph [] []) e []) as [[[root g0] c0]| |] eqn:E; cbn [rbind fst snd] in H; try discriminate.
  destruct (expand_loop s LOOPLIM _) as [st| |] eqn:EL; cbn [rbind] in H; try discriminate. injection H as <- <-.
  destruct (flatten_start s _ _ _ _ E) as ((I0 & OK & _) & -> & _).
  destruct (flatten_notes _ _ _ _ _ _ E) as (AS & NO & new & Ec & HN); try (intros ? []). cbn [app] in Ec. subst c0.
  destruct (expand_loop_notes _ _ _ EL) as (NW & F).
  { split; [exact I0|]. split; [exact OK|]. cbn [x_g x_chgs] in *. split; [intros c Ic; now apply HN|].
    intros o k c J. exfalso. apply keyed_in in J. destruct (flatten_spec s _ _ _ _ _ _ E) as (_ & _ & _ & _ & (xs & ys & _ & Ee & _ & Fy) & _); [intros ? []|].
    cbn [g_edges app] in Ee. rewrite Ee in J. rewrite Forall_forall in Fy. apply Fy in J. destruct J as (J & _). discriminate J. }
  destruct F as (_ & _ & HC & HK). split; [|split; [exact HC|exact HK]].
  exact (noted_newer _ _ _ _ NW I0 NO).
Qed.

(** Every type written has a definition. *)
Lemma noted_written : forall g cs e n x, noted ts g cs n e -> written e x -> exists t, get_type ts (tg_str x) = Some t.
Proof.
  intros g cs e n x H W. revert n H. induction W as [e x E|e b x Ib E|e b e' x Ib It W IH]; intros n H; inversion H as [n0 e0 Hn Hi Ho Hc]; subst.
  - rewrite E in Ho. destruct Ho as (t & Q & _). eauto.
  - assert (X : exists o, noted_block ts g cs o b) by (clear -Hc Ib; induction Hc; [destruct Ib|]; destruct Ib as [->|Ib]; eauto).
    destruct X as (o & X). inversion X as [n1 b1 t _ _ Q1 Q2 _]; subst. destruct E as [E|E]; [rewrite E in Q1; destruct Q1 as (t' & Q & _)|rewrite E in Q2; destruct Q2 as (t' & Q & _)]; eauto.
  - assert (X : exists o, noted_block ts g cs o b) by (clear -Hc Ib; induction Hc; [destruct Ib|]; destruct Ib as [->|Ib]; eauto).
    destruct X as (o & X). inversion X as [n1 b1 t _ _ Q1 Q2 Q3]; subst.
    assert (Y : exists a, noted_term ts g cs a (TArg (AExpr e'))) by (clear -Q3 It; induction Q3; [destruct It|]; destruct It as [->|It]; eauto).
    destruct Y as (a & Y). inversion Y as [n2 e2 Z|n2 t2 Z _ _]; subst; [eauto|]. exfalso. now apply (Z e').
Qed.
End S.
