(** Expanding ops to their implementations. *)
From Coq Require Import String List ZArith NArith Bool Arith Lia.
From Verif Require Import Model.Base Model.Value Model.Ast Model.Registry Model.AstGraph Spec.AstGraphSpec
  Proofs.RegistryProofs Proofs.AstFlatProofs.
Import ListNotations.

Definition lk (ts : list nat) (cmd : nat) : list edge :=
  map (fun it => Edge (snd it) cmd (RTerm (N.of_nat (fst it) mod 256))) (combine (seq 0 (length ts)) ts).
Definition in_edges (g : graph) (n : nat) : list edge := filter (fun e => Nat.eqb (e_dst e) n) (g_edges g).

Lemma ext_in_edges : forall g g' n, ext g g' -> n < sz g -> in_edges g' n = in_edges g n.
Proof.
  intros g g' n E L. assert (X := ext_in_filter g g' n (fun _ => true) E L). unfold in_edges.
  rewrite (filter_ext _ (fun e => Nat.eqb (e_dst e) n && true)), X by (intros; now rewrite andb_true_r).
  apply filter_ext. intros; apply andb_true_r.
Qed.

Record inv (g : graph) : Prop := {
  i_ord : forall e, In e (g_edges g) -> e_src e < e_dst e < sz g;
  i_tree : forall n, 0 < n < sz g -> exists p, parents g n = [p];
  i_cmd : forall o c k, In (Edge o c (RKeyed k)) (g_edges g) -> (exists t, node g o = Some (NOp t)) /\
            in_edges g c = Edge o c (RKeyed k) :: lk (flags_below g o) c ++ lk (args_below g o) c
}.

Lemma inv_bound : forall g, inv g -> bound g.
Proof. intros g I e H. destruct (i_ord g I e H). lia. Qed.
Lemma child_range : forall g n c, inv g -> In c (children g n) -> n < c < sz g.
Proof.
  intros g n c I H. unfold children in H. apply in_map_iff in H. destruct H as (e & <- & H). apply filter_In in H.
  destruct H as [H1 H2]. apply andb_prop in H2. destruct H2 as [H2 _]. apply Nat.eqb_eq in H2. rewrite <- H2. now apply (i_ord g I).
Qed.
Lemma filter_ext_in' : forall A (p q : A -> bool) l, (forall x, In x l -> p x = q x) -> filter p l = filter q l.
Proof. intros. now apply filter_ext_in. Qed.
Lemma ext_flags : forall g g' o, ext g g' -> inv g -> o < sz g -> flags_below g' o = flags_below g o.
Proof.
  intros g g' o E I L. unfold flags_below. rewrite (ext_children g g' o E L). apply filter_ext_in'. intros x H.
  apply child_range in H; auto. apply ext_is_flag; auto. lia.
Qed.
Lemma ext_args : forall g g' o, ext g g' -> inv g -> o < sz g -> args_below g' o = args_below g o.
Proof.
  intros g g' o E I L. unfold args_below. rewrite (ext_children g g' o E L). apply filter_ext_in'. intros x H.
  apply child_range in H; auto. f_equal. apply ext_is_flag; auto. lia.
Qed.
Lemma ext_edge : forall g g' e, ext g g' -> In e (g_edges g) -> In e (g_edges g').
Proof. intros g g' e (xs & ys & _ & E & _) H. rewrite E. apply in_or_app. now left. Qed.
Lemma reach_mono : forall g g' a b, (forall e, In e (g_edges g) -> In e (g_edges g')) -> reach g a b -> reach g' a b.
Proof. intros g g' a b H R. induction R; [constructor|econstructor; eauto]. Qed.
Lemma recursive_use_ext : forall g g' o t k, ext g g' -> recursive_use g o t k -> recursive_use g' o t k.
Proof.
  intros g g' o t k E (o' & c & t' & k' & A & B & C & D). exists o', c, t', k'. split; [eapply ext_edge; eauto|].
  split; [eapply ext_node_some; eauto|]. split; [auto|]. eapply reach_mono; [|eauto]. intros; eapply ext_edge; eauto.
Qed.
Lemma kept_of_impl : forall (P Q : ty -> Prop) l m, (forall t, P t -> Q t) -> kept_of P l m -> kept_of Q l m.
Proof. intros P Q l m H K. induction K; [constructor|now constructor|constructor; auto]. Qed.

(** Showing only depends on what is at or after the node. *)
Lemma shows_mono : forall g g' k, (forall e, In e (g_edges g) -> e_src e < e_dst e) ->
  (forall n x, node g n = Some x -> node g' n = Some x) ->
  (forall n, k <= n -> n < sz g -> children g' n = children g n) ->
  forall s e n, size_expr e <= s -> k <= n -> shows g n e -> shows g' n e.
Proof.
  intros g g' k O HN HC. induction s as [|s IH]; intros e n L K H; [destruct e; cbn in L; lia|].
  assert (CO : forall n c, In c (children g n) -> n < c).
  { intros m c I. unfold children in I. apply in_map_iff in I. destruct I as (x & <- & I). apply filter_In in I.
    destruct I as [I1 I2]. apply andb_prop in I2. destruct I2 as [I2 _]. apply Nat.eqb_eq in I2. rewrite <- I2. auto. }
  inversion H as [n0 e0 Hn Hc]; subst.
  assert (n < sz g) by (apply nth_error_Some; unfold node in Hn; congruence).
  constructor; [auto|]. rewrite HC by auto.
  apply (Forall2_impl_in _ _ _ _ _ _ Hc). intros o b Io Ib Hb. inversion Hb as [n1 b1 t Ht Hop Hts]; subst.
  assert (o < sz g) by (apply nth_error_Some; unfold node in Ht; congruence).
  apply CO in Io.
  apply shows_block_intro with t; [auto|auto|]. rewrite HC by (auto; lia).
  apply (Forall2_impl_in _ _ _ _ _ _ Hts). intros a t' Ia It Ht'. apply CO in Ia.
  inversion Ht'; subst; try (constructor; auto; fail).
  - apply shows_pound with p; auto.
  - constructor. apply IH; [|lia|auto]. assert (X := sub_size e b e0 Ib It). lia.
Qed.

Lemma shows_impl_ext : forall g g' c i, ext g g' -> inv g -> shows_impl g c i -> shows_impl g' c i.
Proof.
  intros g g' c i E I H. destruct i as [l f|d]; cbn in *.
  - destruct H as (t & H). exists t. eapply ext_node_some; eauto.
  - destruct H as ((ps & H1 & H2) & x & H3 & H4). split; [exists ps; split; [eapply ext_node_some; eauto|auto]|].
    exists x. split; [|eapply shows_ext'; eauto]. rewrite (ext_children g g'); auto.
    apply nth_error_Some. unfold node in H1. congruence.
Qed.

Lemma keyed_app : forall ns es ys o, keyed (Graph ns (es ++ ys)) o = keyed (Graph ns es) o ++ keyed (Graph ns ys) o.
Proof. intros. unfold keyed. cbn [g_edges]. apply flat_map_app. Qed.
Lemma keyed_edges : forall g g' o, g_edges g = g_edges g' -> keyed g o = keyed g' o.
Proof. intros. unfold keyed. now rewrite H. Qed.
Lemma keyed_in : forall g o k c, In (k, c) (keyed g o) <-> In (Edge o c (RKeyed k)) (g_edges g).
Proof.
  intros. unfold keyed. rewrite in_flat_map. split.
  - intros (e & I & H). destruct e as [a b r]. cbn in *. destruct r; try destruct H. destruct (Nat.eqb_spec a o); [|destruct H].
    destruct H as [H|[]]. injection H as -> ->. now subst.
  - intros I. exists (Edge o c (RKeyed k)). split; [auto|]. cbn. rewrite Nat.eqb_refl. now left.
Qed.
Lemma keyed_none : forall g o, (forall e, In e (g_edges g) -> e_src e <> o \/ match e_rel e with RKeyed _ => False | _ => True end) -> keyed g o = [].
Proof.
  intros g o H. destruct (keyed g o) as [|[k c] l] eqn:E; [auto|]. assert (In (k, c) (keyed g o)) by (rewrite E; now left).
  apply keyed_in in H0. destruct (H _ H0) as [X|X]; cbn in X; tauto.
Qed.
Lemma op_expanded_keyed : forall g o, op_expanded g o = match keyed g o with [] => false | _ => true end.
Proof.
  intros. unfold op_expanded. destruct (keyed g o) as [|[k c] l] eqn:E.
  - apply not_true_is_false. intros H. apply existsb_exists in H. destruct H as (e & I & H). unfold edges in I.
    apply filter_In in I. destruct I as [I J]. apply Nat.eqb_eq in J. apply in_rev in I. destruct e as [a b r]. cbn in *.
    destruct r; try discriminate. subst a. apply keyed_in in I. rewrite E in I. destruct I.
  - assert (I : In (k, c) (keyed g o)) by (rewrite E; now left). apply keyed_in in I. apply existsb_exists.
    exists (Edge o c (RKeyed k)). split; [|reflexivity]. unfold edges. apply filter_In. split; [now apply in_rev in I|]. cbn. apply Nat.eqb_refl.
Qed.

(** ** The terms of an op *)
Lemma filter_filter : forall A (p q : A -> bool) l, filter p (filter q l) = filter (fun x => q x && p x) l.
Proof.
  induction l as [|x l IH]; [reflexivity|]. cbn. destruct (q x); cbn; [destruct (p x); now rewrite IH|exact IH].
Qed.
Lemma map_filter : forall A B (f : A -> B) (p : B -> bool) l, filter p (map f l) = map f (filter (fun x => p (f x)) l).
Proof. induction l as [|x l IH]; [reflexivity|]. cbn. destruct (p (f x)); cbn; now rewrite IH. Qed.
Lemma op_terms_eq : forall g o f, op_terms g o f = filter (fun n => Bool.eqb (is_flag g n) f) (children g o).
Proof.
  intros g o f. unfold op_terms, edges, children. rewrite filter_rev, filter_rev, map_rev, rev_involutive.
  rewrite map_filter, !filter_filter. f_equal. apply filter_ext. intros e. unfold is_normal. now rewrite andb_assoc.
Qed.
Lemma link_terms_eq : forall ts g cmd, link_terms g ts cmd = Graph (g_nodes g) (g_edges g ++ lk ts cmd).
Proof.
  intros ts g cmd. unfold link_terms, lk. generalize (combine (seq 0 (length ts)) ts). intros l. revert g.
  induction l as [|x l IH]; intros g; cbn [fold_left map].
  - rewrite app_nil_r. now destruct g.
  - rewrite IH. cbn [add_edge g_nodes g_edges]. now rewrite <- app_assoc.
Qed.
Lemma lk_in : forall e ts cmd, In e (lk ts cmd) -> In (e_src e) ts /\ e_dst e = cmd /\ exists i, e_rel e = RTerm i.
Proof.
  intros e ts cmd H. unfold lk in H. apply in_map_iff in H. destruct H as ([i t] & <- & H). cbn. apply in_combine_r in H. eauto.
Qed.
Lemma filter_all : forall A (p : A -> bool) l, (forall x, In x l -> p x = true) -> filter p l = l.
Proof. induction l as [|x l IH]; intros H; [reflexivity|]. cbn. rewrite (H x) by now left. f_equal. apply IH. intros; apply H; now right. Qed.

Lemma link_spec : forall g g1 nd xs ys op t key, inv g -> node g op = Some (NOp t) ->
  g_nodes g1 = g_nodes g ++ nd :: xs -> g_edges g1 = g_edges g ++ ys ->
  Forall (fun e => e_rel e = RNormal /\ e_src e < e_dst e /\ sz g <= e_src e /\ e_dst e < sz g1) ys ->
  (forall n, sz g < n < sz g1 -> exists e, filter (fun e => Nat.eqb (e_dst e) n) ys = [e]) ->
  exists g4,
  (let g2 := add_edge g1 op (sz g) (RKeyed key) in let g3 := link_terms g2 (op_terms g2 op true) (sz g) in
   link_terms g3 (op_terms g3 op false) (sz g)) = g4 /\
  g_nodes g4 = g_nodes g1 /\ ext g g4 /\ inv g4 /\ keyed g4 op = keyed g op ++ [(key, sz g)] /\
  (forall o, o <> op -> keyed g4 o = keyed g o) /\ (forall n, sz g <= n -> children g4 n = children g1 n).
Proof.
  intros g g1 nd xs ys op t key I Nop N1 E1 F P.
  assert (Lop : op < sz g) by (apply nth_error_Some; unfold node in Nop; congruence).
  set (cmd := sz g). 
  assert (S1 : sz g < sz g1) by (rewrite N1, app_length; cbn; lia).
  rewrite Forall_forall in F.
  assert (Fl : forall x, x < sz g -> is_flag g1 x = is_flag g x).
  { intros x L. unfold is_flag, node. now rewrite N1, nth_error_app1. }
  assert (C1 : children g1 op = children g op).
  { unfold children. rewrite E1, filter_app, (filter_none _ _ ys), app_nil_r; [reflexivity|]. intros e Ie. apply F in Ie.
    assert (Nat.eqb (e_src e) op = false) as -> by (apply Nat.eqb_neq; lia). reflexivity. }
  assert (T : forall g2 es f, g_nodes g2 = g_nodes g1 -> g_edges g2 = g_edges g1 ++ es -> (forall e, In e es -> e_rel e <> RNormal) ->
     op_terms g2 op f = if f then flags_below g op else args_below g op).
  { intros g2 es f N2 E2 NR. rewrite op_terms_eq. assert (X : children g2 op = children g op).
    { rewrite <- C1. unfold children. rewrite E2, filter_app, (filter_none _ _ es), app_nil_r; [reflexivity|].
      intros e Ie. apply NR in Ie. destruct (e_rel e); [congruence| |]; apply andb_false_r. }
    assert (Y : forall x, is_flag g2 x = is_flag g1 x) by (intros x; unfold is_flag, node; now rewrite N2).
    rewrite X. destruct f; (apply filter_ext_in'; intros x Ix; apply child_range in Ix; auto;
      rewrite Y, Fl by lia; destruct (is_flag g x); reflexivity). }
  cbn zeta.
  rewrite (T (add_edge g1 op cmd (RKeyed key)) [Edge op cmd (RKeyed key)] true eq_refl eq_refl) by (intros e [<-|[]]; discriminate).
  rewrite (link_terms_eq (flags_below g op)). cbn [add_edge g_nodes g_edges].
  rewrite (T _ ([Edge op cmd (RKeyed key)] ++ lk (flags_below g op) cmd) false).
  2: reflexivity.
  2: cbn [g_edges]; now rewrite <- app_assoc.
  2: { intros e Ie. apply in_app_or in Ie. destruct Ie as [[<-|[]]|Ie]; [discriminate|]. apply lk_in in Ie. destruct Ie as (_ & _ & i & ->). discriminate. }
  rewrite link_terms_eq. cbn [g_nodes g_edges]. rewrite <- !app_assoc. cbn [app].
  set (new := Edge op cmd (RKeyed key) :: lk (flags_below g op) cmd ++ lk (args_below g op) cmd).
  set (g4 := Graph (g_nodes g1) (g_edges g1 ++ new)). exists g4. split; [reflexivity|]. split; [reflexivity|].
  assert (New : forall e, In e new -> e_dst e = cmd /\ e_src e < sz g /\ e_rel e <> RNormal).
  { intros e [<-|Ie]; [cbn; repeat split; auto; discriminate|]. 
    assert (X : In (e_src e) (children g op) /\ e_dst e = cmd /\ exists i, e_rel e = RTerm i).
    { apply in_app_or in Ie. destruct Ie as [Ie|Ie]; apply lk_in in Ie; destruct Ie as (A & B & C); apply filter_In in A; tauto. }
    destruct X as (A & B & i & C). rewrite C. apply child_range in A; auto. split; [auto|]. split; [lia|discriminate]. }
  assert (Ex : ext g g4).
  { exists (nd :: xs), (ys ++ new). split; [exact N1|]. split; [cbn [g_edges g4]; now rewrite E1, app_assoc|].
    intros e Ie. apply in_app_or in Ie. destruct Ie as [Ie|Ie].
    - apply F in Ie. split; [lia|]. intros _. lia.
    - destruct (New _ Ie) as (A & B & C). split; [lia|]. intros; congruence. }
  assert (FY : forall n p, n <= sz g -> filter (fun e => Nat.eqb (e_dst e) n && p e) ys = []).
  { intros n p L. apply filter_none. intros e Ie. apply F in Ie. assert (Nat.eqb (e_dst e) n = false) as -> by (apply Nat.eqb_neq; lia). reflexivity. }
  assert (FG : forall n p, sz g <= n -> filter (fun e => Nat.eqb (e_dst e) n && p e) (g_edges g) = []).
  { intros n p L. apply filter_none. intros e Ie. apply (i_ord g I) in Ie. assert (Nat.eqb (e_dst e) n = false) as -> by (apply Nat.eqb_neq; lia). reflexivity. }
  assert (Sz4 : sz g4 = sz g1) by reflexivity.
  assert (KA : forall o, keyed g4 o = keyed g o ++ keyed (Graph [] new) o).
  { intros o. transitivity (keyed g o ++ keyed (Graph [] ys) o ++ keyed (Graph [] new) o).
    - unfold keyed. cbn [g_edges g4]. now rewrite E1, !flat_map_app, app_assoc.
    - rewrite (keyed_none (Graph [] ys)); [reflexivity|]. intros e Ie. cbn in Ie. apply F in Ie. destruct Ie as (-> & _). auto. }
  assert (KT : forall o, keyed (Graph [] new) o = keyed (Graph [] [Edge op cmd (RKeyed key)]) o).
  { intros o. unfold new. change (Edge op cmd (RKeyed key) :: ?l) with ([Edge op cmd (RKeyed key)] ++ l) at 1.
    rewrite keyed_app, (keyed_none (Graph [] (_ ++ _))); [now rewrite app_nil_r|]. intros e Ie. cbn in Ie. right. apply in_app_or in Ie.
    assert (X : exists i, e_rel e = RTerm i) by (destruct Ie as [Ie|Ie]; apply lk_in in Ie; tauto). now destruct X as (i & ->). }
  split; [exact Ex|]. split; [|split; [|split]].
  - constructor.
    + intros e Ie. cbn [g_edges g4] in Ie. rewrite E1, <- app_assoc in Ie. rewrite Sz4. apply in_app_or in Ie. destruct Ie as [Ie|Ie].
      { apply (i_ord g I) in Ie. lia. }
      apply in_app_or in Ie. destruct Ie as [Ie|Ie]; [apply F in Ie; lia|]. apply New in Ie. lia.
    + intros n L. destruct (lt_eq_lt_dec n (sz g)) as [[Ln| ->]|Ln].
      * rewrite (ext_parents g g4 n Ex Ln). apply (i_tree g I). lia.
      * exists op. unfold parents. cbn [g_edges g4]. rewrite E1, !filter_app, FG, FY by lia. unfold new.
        cbn [app filter e_dst e_rel]. rewrite Nat.eqb_refl. cbn [andb map e_src]. rewrite filter_none; [reflexivity|].
        intros e Ie. apply in_app_or in Ie. assert (X : exists i, e_rel e = RTerm i) by (destruct Ie as [Ie|Ie]; apply lk_in in Ie; tauto).
        destruct X as (i & ->). apply andb_false_r.
      * rewrite Sz4 in L. destruct (P n) as (e & Pe); [lia|]. exists (e_src e). unfold parents. cbn [g_edges g4].
        rewrite E1, !filter_app, FG by lia. rewrite (filter_none _ _ new).
        2: { intros x Ix. apply New in Ix. assert (Nat.eqb (e_dst x) n = false) as -> by (apply Nat.eqb_neq; lia). reflexivity. }
        rewrite app_nil_r. cbn [app]. rewrite (filter_ext_in _ (fun e => Nat.eqb (e_dst e) n)), Pe; [reflexivity|].
        intros x Ix. apply F in Ix. destruct Ix as (-> & _). apply andb_true_r.
    + intros o c k Ie. cbn [g_edges g4] in Ie. rewrite E1, <- app_assoc in Ie. apply in_app_or in Ie. destruct Ie as [Ie|Ie].
      * destruct (i_cmd g I o c k Ie) as ((t' & A) & B). assert (L := i_ord g I _ Ie). cbn in L. split; [exists t'; eapply ext_node_some; eauto|].
        rewrite (ext_in_edges g g4 c Ex) by lia. rewrite B. rewrite (ext_flags g g4), (ext_args g g4); auto; lia.
      * apply in_app_or in Ie. destruct Ie as [Ie|[Ie|Ie]].
        { apply F in Ie. destruct Ie as (X & _). discriminate X. }
        2: { exfalso. apply in_app_or in Ie. assert (X : exists i, RKeyed k = RTerm i) by (destruct Ie as [Ie|Ie]; apply lk_in in Ie; tauto).
             destruct X as (i & X). discriminate X. }
        injection Ie as <- <- <-. split; [exists t; eapply ext_node_some; eauto|].
        rewrite (ext_flags g g4), (ext_args g g4) by auto. change (in_edges g4 cmd = new). unfold in_edges. cbn [g_edges g4].
        rewrite E1, !filter_app.
        rewrite (filter_none _ _ (g_edges g)), (filter_none _ _ ys), filter_all; [reflexivity| | |].
        -- intros x Ix. apply New in Ix. apply Nat.eqb_eq. tauto.
        -- intros x Ix. apply F in Ix. apply Nat.eqb_neq. unfold cmd. lia.
        -- intros x Ix. apply (i_ord g I) in Ix. apply Nat.eqb_neq. unfold cmd. lia.
  - rewrite KA, (KT op). f_equal. unfold new, keyed. cbn [g_edges flat_map e_rel e_src e_dst]. rewrite Nat.eqb_refl. reflexivity.
  - intros o no. rewrite KA, (KT o). unfold new, keyed at 2. cbn [g_edges flat_map e_rel e_src].
    assert (Nat.eqb op o = false) as -> by (apply Nat.eqb_neq; auto). cbn. now rewrite app_nil_r.
  - intros n L. unfold children. cbn [g_edges g4]. rewrite filter_app, (filter_none _ _ new), app_nil_r; [reflexivity|].
    intros e Ie. apply New in Ie. destruct Ie as (_ & _ & X). destruct (e_rel e); [congruence| |]; apply andb_false_r.
Qed.

(** ** Recursion detection *)
Definition ids_ok (g : graph) (m : ids) : Prop :=
  forall c id, In (c, id) m -> exists o t key, In (Edge o c (RKeyed (Some key))) (g_edges g) /\ node g o = Some (NOp t) /\
    id = tg_str t ++ lit ":" ++ show_ty key.
Lemma ids_ok_ext : forall g g' m, ext g g' -> ids_ok g m -> ids_ok g' m.
Proof.
  intros g g' m E H c id I. destruct (H c id I) as (o & t & k & A & B & C). exists o, t, k. split; [eapply ext_edge; eauto|].
  split; [eapply ext_node_some; eauto|auto].
Qed.
Lemma before_reach : forall f g n m, In m (before f g n) -> reach g m n.
Proof.
  induction f as [|f IH]; intros g n m H; cbn [before] in H; (destruct H as [->|H]; [constructor|]); [destruct H|].
  apply in_flat_map in H. destruct H as (e & I & H). unfold edges_in in I. apply filter_In in I. destruct I as [I J].
  apply Nat.eqb_eq in J. apply in_rev in I. apply reach_step with (e_src e) (e_rel e); [now apply IH|]. destruct e; cbn in *. now subst.
Qed.
Lemma before_le : forall f g n m, inv g -> In m (before f g n) -> m <= n.
Proof.
  induction f as [|f IH]; intros g n m V H; cbn [before] in H; (destruct H as [->|H]; [auto|]); [destruct H|].
  apply in_flat_map in H. destruct H as (e & I & H). unfold edges_in in I. apply filter_In in I. destruct I as [I J].
  apply Nat.eqb_eq in J. apply in_rev in I. apply (i_ord g V) in I. apply IH in H; auto. lia.
Qed.
Lemma flat_map_ext_in : forall A B (f h : A -> list B) l, (forall x, In x l -> f x = h x) -> flat_map f l = flat_map h l.
Proof. induction l as [|x l IH]; intros H; [reflexivity|]. cbn. rewrite (H x) by now left. f_equal. apply IH. intros; apply H; now right. Qed.
Lemma before_ext : forall f g g' n, inv g -> ext g g' -> n < sz g -> before f g' n = before f g n.
Proof.
  induction f as [|f IH]; intros g g' n V E L; cbn [before]; [reflexivity|]. f_equal. rewrite (ext_edges_in g g' n E L).
  apply flat_map_ext_in. intros e I. apply IH; auto. unfold edges_in in I. apply filter_In in I. destruct I as [I _]. apply in_rev in I.
  apply (i_ord g V) in I. lia.
Qed.
Lemma id_of_in : forall m n id, id_of m n = Some id -> In (n, id) m.
Proof.
  unfold id_of. induction m as [|[a b] m IH]; intros n id H; cbn in H; [discriminate|].
  destruct (Nat.eqb_spec a n); [injection H as ->; subst; now left|right; auto].
Qed.
Lemma detect_use : forall g m o t key, ids_ok g m -> detect m g o (tg_str t ++ lit ":" ++ show_ty key) = true -> recursive_use g o t key.
Proof.
  intros g m o t key OK H. unfold detect in H. apply existsb_exists in H. destruct H as (n & B & H).
  destruct (id_of m n) as [id|] eqn:E; [|discriminate]. apply str_eqb_eq in H. apply id_of_in in E. destruct (OK _ _ E) as (o' & t' & k' & A & N & ->).
  exists o', n, t', k'. split; [auto|]. split; [auto|]. split; [auto|]. eapply before_reach; eauto.
Qed.
Lemma detect_ext : forall g g' m m' o id, inv g -> ext g g' -> o < sz g -> (exists l, m' = l ++ m /\ forall c i, In (c, i) l -> sz g <= c) ->
  detect m' g' o id = detect m g o id.
Proof.
  intros g g' m m' o id V E L (l & -> & HL). unfold detect. rewrite (before_ext o g g' o V E L).
  assert (X : forall n, In n (before o g o) -> id_of (l ++ m) n = id_of m n).
  { intros n I. apply before_le in I; auto. clear -HL I L. unfold id_of. induction l as [|[c i] l IH]; [reflexivity|]. cbn.
    destruct (Nat.eqb_spec c n); [subst; specialize (HL n i (or_introl eq_refl)); lia|]. apply IH. intros; apply (HL c0 i0); now right. }
  induction (before o g o) as [|n ns IHn]; [reflexivity|]. cbn. rewrite (X n) by now left. f_equal. apply IHn. intros; apply X; now right.
Qed.

(** ** One implementation *)
Section S.
Variable s : defs.

Lemma params_names : forall ps qs, rmapM (param_from_ast s) ps = Ok qs -> map fst qs = map fst ps.
Proof.
  induction ps as [|p ps IH]; intros qs H; cbn in H; [injection H as <-; reflexivity|].
  destruct (param_from_ast s p) as [q| |] eqn:E; cbn in H; try discriminate.
  destruct (rmapM (param_from_ast s) ps) as [qs'| |]; cbn in H; try discriminate. injection H as <-. cbn. f_equal; [|now apply IH].
  unfold param_from_ast in E. destruct (snd p) as [pt|]; [|injection E as <-; reflexivity]. destruct (str_eqb pt (lit "Expr")); [injection E as <-; reflexivity|].
  destruct (get_type _ _); [injection E as <-; reflexivity|discriminate].
Qed.

Lemma seq_one : forall ys a k n, map e_dst ys = seq a k -> a <= n < a + k -> exists e, filter (fun e => Nat.eqb (e_dst e) n) ys = [e].
Proof.
  induction ys as [|y ys IH]; intros a k n H L; (destruct k as [|k]; [lia|]); cbn in H; [discriminate|]. injection H as Hy H. cbn.
  destruct (Nat.eqb_spec (e_dst y) n) as [E|E].
  - exists y. rewrite filter_none; [reflexivity|]. intros x I. apply (in_map e_dst) in I. rewrite H in I. apply in_seq in I. apply Nat.eqb_neq. lia.
  - apply (IH (S a) k); [auto|lia].
Qed.

Definition entry_ok (g : graph) (m : ids) (op : nat) (t : tag) (e : option ty * impl) (b : bool) (g' : graph) (m' : ids) : Prop :=
  ext g g' /\ inv g' /\ ids_ok g' m' /\ (exists l, m' = l ++ m /\ forall c i, In (c, i) l -> sz g <= c) /\
  (forall o, o <> op -> keyed g' o = keyed g o) /\
  (forall n t', sz g <= n -> node g' n = Some (NOp t') -> exists d, snd e = IDef d /\ occurs (tg_str t') (d_expr d)) /\
  (if b then keyed g' op = keyed g op ++ [(fst e, sz g)] /\ shows_impl g' (sz g) (snd e)
   else g' = g /\ m' = m /\ exists key d, e = (Some key, IDef d) /\ detect m g op (tg_str t ++ lit ":" ++ show_ty key) = true).

Lemma expand_entry_spec : forall op t st e b st', expand_entry s op t st e = Ok (b, st') -> inv (x_g st) -> ids_ok (x_g st) (x_ids st) ->
  node (x_g st) op = Some (NOp t) -> entry_ok (x_g st) (x_ids st) op t e b (x_g st') (x_ids st') /\ (b = false -> st' = st).
Proof.
  intros op t st [key i] b st' H I OK N. unfold expand_entry in H. set (g := x_g st) in *. destruct i as [l f|d].
  - cbn [add_node] in H.
    set (g1 := Graph (g_nodes g ++ [NIntrinsic t f]) (g_edges g)) in *.
    destruct (link_spec g g1 (NIntrinsic t f) [] [] op t key I N eq_refl) as (g4 & E4 & N4 & Ex & I4 & K1 & K2 & _).
    { cbn. now rewrite app_nil_r. } { constructor. }
    { intros n L. cbn in L. rewrite app_length in L. cbn in L. lia. }
    cbn zeta in E4. rewrite E4 in H. injection H as <- <-. split; [|discriminate]. unfold entry_ok. cbn [x_g x_ids].
    split; [auto|]. split; [auto|]. split; [eapply ids_ok_ext; eauto|]. split; [exists []; split; [auto|intros ? ? []]|].
    split; [auto|]. split; [|split; [auto|]].
    + intros n t' L Nn. exfalso. unfold node in Nn. rewrite N4 in Nn. cbn in Nn. rewrite nth_error_app2 in Nn by auto.
      destruct (n - sz g) as [|[]]; discriminate.
    + cbn. exists t. unfold node. rewrite N4. cbn. now rewrite nth_error_app2, Nat.sub_diag by auto.
  - set (oid := match key with Some ty => _ | None => None end) in H.
    destruct (match oid with Some id => detect (x_ids st) g op id | None => false end) eqn:Ed.
    { injection H as <- <-. split; [|auto]. unfold entry_ok. split; [apply ext_refl|]. split; [auto|]. split; [auto|].
      split; [exists []; split; [auto|intros ? ? []]|]. split; [auto|]. split.
      - intros n t' L Nn. apply nth_error_None in L. unfold node in Nn. fold g in Nn. congruence.
      - split; [auto|]. split; [auto|]. destruct key as [ty|]; [|discriminate]. exists ty, d. auto. }
    destruct (rmapM (param_from_ast s) (d_params d)) as [ps| |] eqn:Ep; cbn [rbind] in H; try discriminate.
    cbn [add_node] in H.
    set (g1 := Graph (g_nodes g ++ [NDef (ex_tag (d_expr d)) ps]) (g_edges g)) in *.
    destruct (flatten_expr s g1 (d_expr d) (x_chgs st)) as [[[root g2] c2]| |] eqn:Ef; cbn [rbind fst snd] in H; try discriminate.
    assert (S1 : sz g1 = S (sz g)) by (cbn; rewrite app_length; cbn; lia).
    assert (B1 : bound g1). { intros x Ix. apply (inv_bound g I) in Ix. lia. }
    destruct (flatten_spec s _ _ _ _ _ _ Ef B1) as (-> & B2 & Ex2 & Sh & (xs & ys & N2 & E2 & D2 & F2) & Oc).
    set (g3 := add_edge g2 (sz g) (sz g1) RNormal) in *.
    assert (N3 : g_nodes g3 = g_nodes g ++ NDef (ex_tag (d_expr d)) ps :: NExpr (ex_tag (d_expr d)) :: xs).
    { cbn [g3 add_edge g_nodes]. rewrite N2. cbn [g1 g_nodes]. now rewrite <- app_assoc. }
    assert (L3 : sz g3 = S (S (sz g)) + length xs) by (rewrite N3, app_length; cbn; lia).
    destruct (link_spec g g3 _ _ (ys ++ [Edge (sz g) (sz g1) RNormal]) op t key I N N3) as (g4 & E4 & N4 & Ex & I4 & K1 & K2 & C4).
    { cbn [g3 add_edge g_edges]. rewrite E2. cbn [g1 g_edges]. now rewrite app_assoc. }
    { apply Forall_app. split.
      - apply Forall_forall. intros x Ix. rewrite Forall_forall in F2. destruct (F2 _ Ix) as (R & A & B).
        split; [auto|]. split; [auto|]. split; [lia|]. apply (in_map e_dst) in Ix. rewrite D2 in Ix. apply in_seq in Ix. lia.
      - constructor; [|constructor]. cbn [e_rel e_src e_dst]. split; [auto|]. lia. }
    { intros n L. rewrite filter_app. cbn [filter e_dst]. destruct (Nat.eqb_spec (sz g1) n) as [E|E].
      - subst n. exists (Edge (sz g) (sz g1) RNormal). rewrite filter_none; [reflexivity|]. intros x Ix. apply (in_map e_dst) in Ix.
        rewrite D2 in Ix. apply in_seq in Ix. apply Nat.eqb_neq. lia.
      - rewrite app_nil_r. apply (seq_one ys _ _ n D2). lia. }
    cbn zeta in E4. rewrite E4 in H. injection H as <- <-. split; [|discriminate]. unfold entry_ok. cbn [x_g x_ids].
    assert (CM : node g4 (sz g) = Some (NDef (ex_tag (d_expr d)) ps)).
    { unfold node. rewrite N4, N3, nth_error_app2, Nat.sub_diag by lia. reflexivity. }
    assert (KE : In (Edge op (sz g) (RKeyed key)) (g_edges g4)).
    { apply keyed_in. rewrite K1. apply in_or_app. right. now left. }
    split; [auto|]. split; [auto|]. split; [|split; [|split; [auto|split; [|split; [auto|]]]]].
    + assert (X := ids_ok_ext _ _ _ Ex OK). destruct key as [ty|]; [|exact X]. intros c id [Ic|Ic]; [|now apply X]. unfold oid in Ic. injection Ic as <- <-.
      exists op, t, ty. split; [auto|]. split; [eapply ext_node_some; eauto|reflexivity].
    + destruct key as [ty|]; [|exists []; split; [auto|intros ? ? []]]. exists [(sz g, tg_str t ++ lit ":" ++ show_ty ty)].
      split; [reflexivity|]. intros c i [Ic|[]]. injection Ic as <- _. auto.
    + intros n t' L Nn. exists d. split; [reflexivity|]. destruct (Nat.eq_dec n (sz g)) as [->|ne]; [congruence|].
      apply (Oc n t'); [lia|]. unfold node in *. rewrite N4 in Nn. exact Nn.
    + cbn [snd shows_impl]. split; [exists ps; split; [exact CM|now apply params_names]|]. exists (sz g1). split.
      * rewrite (C4 (sz g)) by auto. unfold children. cbn [g3 add_edge g_edges]. rewrite E2. cbn [g1 g_edges]. rewrite !filter_app.
        rewrite (filter_none _ _ (g_edges g)), (filter_none _ _ ys).
        -- cbn [app filter e_src e_rel]. rewrite Nat.eqb_refl. reflexivity.
        -- intros x Ix. rewrite Forall_forall in F2. apply F2 in Ix. assert (Nat.eqb (e_src x) (sz g) = false) as -> by (apply Nat.eqb_neq; lia). reflexivity.
        -- intros x Ix. apply (i_ord g I) in Ix. assert (Nat.eqb (e_src x) (sz g) = false) as -> by (apply Nat.eqb_neq; lia). reflexivity.
      * apply (shows_mono g2 g4 (sz g1)) with (s := size_expr (d_expr d)); auto.
        -- intros x Ix. rewrite E2 in Ix. apply in_app_or in Ix. destruct Ix as [Ix|Ix]; [apply (i_ord g I) in Ix; lia|].
           rewrite Forall_forall in F2. apply F2 in Ix. lia.
        -- intros n x. unfold node. rewrite N4. cbn [g3 add_edge g_nodes]. auto.
        -- intros n L _. rewrite (C4 n) by lia. unfold children. cbn [g3 add_edge g_edges]. rewrite filter_app. cbn [filter e_src].
           assert (Nat.eqb (sz g) n = false) as -> by (apply Nat.eqb_neq; lia). cbn [andb]. now rewrite app_nil_r.
Qed.

(** ** All implementations of one op *)
Lemma kept_of_app_none : forall P l m d, kept_of P l m -> In (None, d) l -> In (None, d) m.
Proof.
  intros P l m d K. induction K; intros H0; [destruct H0| |].
  - destruct H0 as [->|H0]; [now left|right; auto].
  - destruct H0 as [H0|H0]; [discriminate|auto].
Qed.

Definition pairs_of (ps : list ((option ty * impl) * nat)) : list (option ty * nat) := map (fun p => (fst (fst p), snd p)) ps.

Lemma expand_entries_spec : forall es op t st b st', expand_entries s op t st es = Ok (b, st') -> inv (x_g st) -> ids_ok (x_g st) (x_ids st) ->
  node (x_g st) op = Some (NOp t) -> exists ps,
  ext (x_g st) (x_g st') /\ inv (x_g st') /\ ids_ok (x_g st') (x_ids st') /\
  (exists l, x_ids st' = l ++ x_ids st /\ forall c i, In (c, i) l -> sz (x_g st) <= c) /\
  (forall o, o <> op -> keyed (x_g st') o = keyed (x_g st) o) /\
  (forall n t', sz (x_g st) <= n -> node (x_g st') n = Some (NOp t') -> exists key d, In (key, IDef d) es /\ occurs (tg_str t') (d_expr d)) /\
  kept_of (recursive_use (x_g st') op t) es (map fst ps) /\ keyed (x_g st') op = keyed (x_g st) op ++ pairs_of ps /\
  Forall (fun p => sz (x_g st) <= snd p /\ shows_impl (x_g st') (snd p) (snd (fst p))) ps /\
  b = (match ps with [] => false | _ => true end) /\
  (b = false -> st' = st /\ forall e, In e es -> exists key d, e = (Some key, IDef d) /\ detect (x_ids st) (x_g st) op (tg_str t ++ lit ":" ++ show_ty key) = true).
Proof.
  induction es as [|e es IH]; intros op t st b st' H I OK N; cbn [expand_entries] in H.
  - injection H as <- <-. exists []. split; [apply ext_refl|]. split; [auto|]. split; [auto|]. split; [exists []; split; [auto|intros ? ? []]|].
    split; [auto|]. split. { intros n t' L Nn. apply nth_error_None in L. unfold node in Nn. congruence. }
    split; [constructor|]. split; [cbn; now rewrite app_nil_r|]. split; [constructor|]. split; [auto|]. intros _. split; [auto|]. intros e [].
  - destruct (expand_entry s op t st e) as [[b1 st1]| |] eqn:E1; cbn [rbind fst snd] in H; try discriminate.
    destruct (expand_entries s op t st1 es) as [[b2 st2]| |] eqn:E2; cbn [rbind fst snd] in H; try discriminate.
    injection H as <- <-.
    destruct (expand_entry_spec _ _ _ _ _ _ E1 I OK N) as ((A1 & A2 & A3 & (l1 & A4 & A4') & A5 & A6 & A7) & A8).
    assert (N1 : node (x_g st1) op = Some (NOp t)) by (eapply ext_node_some; eauto).
    destruct (IH _ _ _ _ _ E2 A2 A3 N1) as (ps & B1 & B2 & B3 & (l2 & B4 & B4') & B5 & B6 & B7 & B8 & B9 & B10 & B11).
    assert (S1 := ext_size _ _ A1).
    exists ((if b1 then [(e, sz (x_g st))] else []) ++ ps).
    split; [eapply ext_trans; eauto|]. split; [auto|]. split; [auto|].
    split. { exists (l2 ++ l1). split; [rewrite B4, A4; now rewrite app_assoc|]. intros c i Ic. apply in_app_or in Ic.
             destruct Ic as [Ic|Ic]; [apply B4' in Ic; lia|now apply A4' in Ic]. }
    split; [intros o no; rewrite B5, A5; auto|].
    split. { intros n t' L Nn. destruct (le_lt_dec (sz (x_g st1)) n) as [L1|L1].
             - destruct (B6 n t' L1 Nn) as (key & d & Id & O). exists key, d. split; [now right|auto].
             - rewrite (ext_node _ _ n B1 L1) in Nn. destruct (A6 n t' L Nn) as (d & Ed & O). destruct e as [key i]. cbn in Ed. subst i.
               exists key, d. split; [now left|auto]. }
    split; [|split; [|split; [|split]]].
    + destruct b1; cbn [app map fst].
      * now constructor.
      * destruct A7 as (_ & _ & key & d & -> & D). constructor; [|exact B7]. apply (recursive_use_ext (x_g st)); [eapply ext_trans; eauto|]. eapply detect_use; eauto.
    + rewrite B8. destruct b1; cbn [app].
      * destruct A7 as [-> _]. unfold pairs_of. cbn [map fst snd]. now rewrite <- app_assoc.
      * destruct A7 as (-> & _). reflexivity.
    + apply Forall_app. split.
      * destruct b1; constructor; [|constructor]. cbn [fst snd]. split; [auto|]. destruct A7 as [_ A7]. eapply shows_impl_ext; eauto.
      * eapply Forall_impl; [|exact B9]. cbn. intros p [X Y]. split; [lia|auto].
    + rewrite B10. destruct b1; cbn; [reflexivity|]. reflexivity.
    + intros X. apply orb_false_elim in X. destruct X as [-> ->]. assert (st1 = st) as -> by auto. destruct (B11 eq_refl) as [-> Y].
      split; [auto|]. intros x [<-|Ix]; [|auto]. destruct A7 as (_ & _ & key & d & A & B). eauto.
Qed.
End S.
