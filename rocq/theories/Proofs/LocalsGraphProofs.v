(** Neighbours in the expression graph. *)
From Coq Require Import String List Bool Arith Lia NArith ZArith Permutation Sorting.Sorted.
From Verif Require Import Model.Base Model.Value Model.Ast Model.Registry Model.AstGraph Model.Locals
  Spec.AstGraphSpec Spec.LocalsSpec.
From Verif Require Import Proofs.AstFlatProofs Proofs.AstExpandProofs Proofs.AstTypedProofs Proofs.AstGraphProofs.
Import ListNotations.
Set Implicit Arguments.

Record good (g : graph) : Prop := {
  gd_inv : inv g;
  gd_typed : typed g;
  gd_srt : srt g;
  gd_root : exists t, node g 0 = Some (NExpr t)
}.

Section G.
Variable g : graph.
Hypothesis G : good g.

Lemma child_lt : forall a b, In b (children g a) -> a < b < sz g.
Proof. intros a b I. apply in_children in I. apply (i_ord g (gd_inv G) _ I). Qed.
Lemma in_parents : forall a b r, In (Edge a b r) (g_edges g) -> (forall i, r <> RTerm i) -> In a (parents g b).
Proof.
  intros a b r I N. unfold parents. apply in_map_iff. exists (Edge a b r). split; [reflexivity|]. apply filter_In. split; [exact I|].
  cbn. rewrite Nat.eqb_refl. destruct r; auto. now destruct (N i).
Qed.
Lemma parent_child : forall a b, In b (children g a) -> parents g b = [a].
Proof.
  intros a b I. pose proof (child_lt _ _ I). apply in_children in I. apply in_parents in I; [|discriminate].
  destruct (i_tree g (gd_inv G) b) as (p & P); [lia|]. rewrite P in *. destruct I as [->|[]]. reflexivity.
Qed.
Lemma child_unique : forall a a' b, In b (children g a) -> In b (children g a') -> a = a'.
Proof. intros a a' b I J. apply parent_child in I, J. congruence. Qed.
Lemma sorted_nodup : forall l, StronglySorted lt l -> NoDup l.
Proof.
  induction l as [|a l IH]; intros S; constructor; inversion S; subst; auto. intros I. rewrite Forall_forall in H2. specialize (H2 _ I). lia.
Qed.
Lemma children_nodup : forall a, NoDup (children g a).
Proof. intros a. apply sorted_nodup, (gd_srt G). Qed.

Lemma expr_child : forall e t b, node g e = Some (NExpr t) -> In b (children g e) -> exists t, node g b = Some (NOp t).
Proof.
  intros e t b E I. apply in_children in I. destruct (gd_typed G _ I) as (x & y & X & Y & K). cbn [e_src e_dst e_rel] in X, Y, K. rewrite E in X. injection X as <-.
  destruct y; try contradiction. eauto.
Qed.
Lemma op_child : forall o t b, node g o = Some (NOp t) -> In b (children g o) -> exists x, node g b = Some x /\ termlike x.
Proof.
  intros o t b E I. apply in_children in I. destruct (gd_typed G _ I) as (x & y & X & Y & K). cbn [e_src e_dst e_rel] in X, Y, K. rewrite E in X. injection X as <-.
  exists y. auto.
Qed.
Lemma def_child : forall o t ps b, node g o = Some (NDef t ps) -> In b (children g o) -> exists t, node g b = Some (NExpr t).
Proof.
  intros o t ps b E I. apply in_children in I. destruct (gd_typed G _ I) as (x & y & X & Y & K). cbn [e_src e_dst e_rel] in X, Y, K. rewrite E in X. injection X as <-.
  destruct y; try contradiction. eauto.
Qed.

Lemma parent_edge_of : forall n, 0 < n < sz g -> exists p r, In (Edge p n r) (g_edges g) /\ (forall i, r <> RTerm i).
Proof.
  intros n L. destruct (i_tree g (gd_inv G) n L) as (p & P). assert (I : In p (parents g n)) by (rewrite P; now left).
  unfold parents in I. apply in_map_iff in I. destruct I as ([a b r] & <- & I). apply filter_In in I. destruct I as (I & Q). cbn in Q.
  apply andb_true_iff in Q. destruct Q as (Q & R). apply Nat.eqb_eq in Q. subst. exists a, r. split; [exact I|]. intros i ->. discriminate.
Qed.
Lemma op_has_parent : forall o t, node g o = Some (NOp t) -> exists e te, node g e = Some (NExpr te) /\ In o (children g e).
Proof.
  intros o t E. assert (o < sz g) by (apply nth_error_Some; unfold node in E; congruence).
  destruct (gd_root G) as (t0 & R). destruct (Nat.eq_dec o 0) as [->|]; [congruence|].
  destruct (@parent_edge_of o) as (p & r & I & N); [lia|]. destruct (gd_typed G _ I) as (x & y & X & Y & K). cbn [e_src e_dst e_rel] in X, Y, K.
  rewrite E in Y. injection Y as <-. destruct r.
  - destruct x; cbn in K; try contradiction. exists p, t1. split; [exact X|]. now apply in_children.
  - destruct x; cbn in K; contradiction.
  - now destruct (N i).
Qed.

(** ** The functions that look around *)
Lemma filter_map : forall A B (f : A -> B) p l, filter p (map f l) = map f (filter (fun x => p (f x)) l).
Proof. induction l as [|a l IH]; cbn; [reflexivity|]. destruct (p (f a)); cbn; now rewrite IH. Qed.
Lemma filter_filter : forall A (p q : A -> bool) l, filter p (filter q l) = filter (fun x => q x && p x) l.
Proof. induction l as [|a l IH]; cbn; [reflexivity|]. destruct (q a); cbn; [destruct (p a); now rewrite IH|auto]. Qed.
Lemma filter_ext_in' : forall A (p q : A -> bool) l, (forall x, In x l -> p x = q x) -> filter p l = filter q l.
Proof. induction l as [|a l IH]; intros H; cbn; [reflexivity|]. rewrite (H a (or_introl eq_refl)), IH; [reflexivity|]. intros x X. apply H. now right. Qed.

Lemma ops_rev_children : forall e t, node g e = Some (NExpr t) -> ops_rev g e = rev (children g e).
Proof.
  intros e t E. unfold ops_rev, neighbours, edges, children. rewrite filter_map, filter_filter, <- map_rev. f_equal.
  rewrite <- filter_rev. apply filter_ext_in'. intros [a b r] I. rewrite <- in_rev in I. cbn.
  destruct (Nat.eqb_spec a e) as [->|]; [|reflexivity]. cbn [andb].
  destruct (gd_typed G _ I) as (x & y & X & Y & K). cbn [e_src e_dst e_rel] in X, Y, K. rewrite E in X. injection X as <-. unfold is_op. rewrite Y.
  destruct r; destruct y; cbn in K; try tauto.
Qed.
Lemma in_edges_in : forall n e, In e (edges_in g n) <-> In e (g_edges g) /\ e_dst e = n.
Proof. intros n e. unfold edges_in. rewrite filter_In, <- in_rev, Nat.eqb_eq. tauto. Qed.

Lemma op_parent_ok : forall e t o, node g e = Some (NExpr t) -> In o (children g e) -> op_parent g o = Ok e.
Proof.
  intros e t o E I. unfold op_parent.
  assert (A : forall x, In x (map e_src (filter (fun e => is_normal (e_rel e)) (edges_in g o))) -> x = e).
  { intros x X. apply in_map_iff in X. destruct X as ([a b r] & <- & X). apply filter_In in X. destruct X as (X & N). apply in_edges_in in X.
    destruct X as (X & D). cbn in *. subst. destruct r; try discriminate. apply in_children in X. eapply child_unique; eauto. }
  assert (B : In e (map e_src (filter (fun e => is_normal (e_rel e)) (edges_in g o)))).
  { apply in_map_iff. exists (Edge e o RNormal). split; [reflexivity|]. apply filter_In. split; [|reflexivity]. apply in_edges_in.
    split; [now apply in_children|reflexivity]. }
  destruct (map e_src _) as [|x l]; [destruct B|]. rewrite (A x (or_introl eq_refl)). cbn [find].
  unfold is_expr at 1. rewrite E. reflexivity.
Qed.
Lemma arg_op_ok : forall o a, In a (children g o) -> arg_op g a = Ok o.
Proof.
  intros o a I. unfold arg_op.
  assert (A : forall x, In x (filter (fun e => is_normal (e_rel e)) (edges_in g a)) -> e_src x = o).
  { intros [a' b r] X. apply filter_In in X. destruct X as (X & N). apply in_edges_in in X.
    destruct X as (X & D). cbn in *. subst. destruct r; try discriminate. apply in_children in X. eapply child_unique; eauto. }
  assert (B : In (Edge o a RNormal) (filter (fun e => is_normal (e_rel e)) (edges_in g a))).
  { apply filter_In. split; [|reflexivity]. apply in_edges_in. split; [now apply in_children|reflexivity]. }
  destruct (filter _ _) as [|x l]; [destruct B|]. cbn. now rewrite (A x (or_introl eq_refl)).
Qed.

Lemma take_while_app : forall l a r, ~ In a l -> take_while (fun n => negb (Nat.eqb n a)) (l ++ a :: r) = l.
Proof.
  induction l as [|x l IH]; intros a r N; cbn.
  - now rewrite Nat.eqb_refl.
  - destruct (Nat.eqb_spec x a) as [->|]; [destruct N; now left|]. cbn. f_equal. apply IH. intros I. apply N. now right.
Qed.
Lemma skip_while_app : forall l a r, ~ In a l -> skip_while (fun n => negb (Nat.eqb n a)) (l ++ a :: r) = a :: r.
Proof.
  induction l as [|x l IH]; intros a r N; cbn.
  - now rewrite Nat.eqb_refl.
  - destruct (Nat.eqb_spec x a) as [->|]; [destruct N; now left|]. cbn. apply IH. intros I. apply N. now right.
Qed.
Lemma last_of_snoc : forall l a, last_of (l ++ [a]) = Some a.
Proof. induction l as [|x l IH]; intros a; [reflexivity|]. cbn. rewrite IH. destruct l; reflexivity. Qed.
Lemma last_of_rev : forall l, last_of (rev l) = hd_error l.
Proof. intros [|a l]; [reflexivity|]. cbn [rev hd_error]. apply last_of_snoc. Qed.

Lemma nodup_mid : forall (l : list nat) a r, NoDup (l ++ a :: r) -> ~ In a l /\ ~ In a r.
Proof. intros l a r N. apply NoDup_remove_2 in N. rewrite in_app_iff in N. tauto. Qed.

Lemma op_next_ok : forall e t l a r, node g e = Some (NExpr t) -> children g e = l ++ a :: r -> op_next g a = Ok (hd_error r).
Proof.
  intros e t l a r E C. unfold op_next. rewrite (@op_parent_ok e t a) by (auto; rewrite C; apply in_or_app; right; now left).
  cbn [rbind]. rewrite (@ops_rev_children e t E), C, rev_app_distr. cbn [rev]. rewrite <- app_assoc. cbn [app].
  rewrite take_while_app, last_of_rev; [reflexivity|]. rewrite <- in_rev. pose proof (children_nodup e) as N. rewrite C in N. now apply nodup_mid in N.
Qed.
Lemma op_prev_ok : forall e t l a r, node g e = Some (NExpr t) -> children g e = l ++ a :: r -> op_prev g a = Ok (hd_error (rev l)).
Proof.
  intros e t l a r E C. unfold op_prev. rewrite (@op_parent_ok e t a) by (auto; rewrite C; apply in_or_app; right; now left).
  cbn [rbind]. rewrite (@ops_rev_children e t E), C, rev_app_distr. cbn [rev]. rewrite <- app_assoc. cbn [app].
  rewrite skip_while_app; [|rewrite <- in_rev; pose proof (children_nodup e) as N; rewrite C in N; now apply nodup_mid in N].
  cbn [nth_error]. destruct (rev l); reflexivity.
Qed.
Lemma first_op_ok : forall e t, node g e = Some (NExpr t) -> first_op g e = match children g e with a :: _ => Ok a | [] => Panic end.
Proof. intros e t E. unfold first_op. rewrite (@ops_rev_children e t E), last_of_rev. destruct (children g e); reflexivity. Qed.

Lemma is_arg_spec : forall a, is_arg g a = true <-> exists o t, node g o = Some (NOp t) /\ In a (children g o) /\ is_flag g a = false.
Proof.
  intros a. split.
  - intros A. unfold is_arg in A. destruct (node g a) as [x|] eqn:E; [|discriminate].
    assert (L : a < sz g) by (apply nth_error_Some; unfold node in E; congruence).
    assert (P : forall p r, In (Edge p a r) (g_edges g) -> (forall i, r <> RTerm i) -> termlike x -> (forall t, x = NExpr t -> is_op g p = true) ->
              is_flag g a = false -> exists o t, node g o = Some (NOp t) /\ In a (children g o) /\ is_flag g a = false).
    { intros p r I N T X F. destruct (gd_typed G _ I) as (u & v & U & V & K). cbn [e_src e_dst e_rel] in U, V, K. rewrite E in V. injection V as <-.
      destruct r; [| |now destruct (N i)].
      - destruct u; cbn in K; try contradiction; try (destruct x; contradiction).
        + exists p, op. split; [exact U|]. split; [now apply in_children|exact F].
        + destruct x; try contradiction. specialize (X _ eq_refl). unfold is_op in X. rewrite U in X. discriminate.
      - destruct u; cbn in K; try contradiction. destruct x; contradiction. }
    assert (Q : a <> 0 -> exists p r, In (Edge p a r) (g_edges g) /\ (forall i, r <> RTerm i)) by (intros; apply parent_edge_of; lia).
    destruct (gd_root G) as (t0 & R).
    assert (F : is_flag g a = false) by (unfold is_flag; rewrite E; destruct x; auto; discriminate).
    assert (NZ : (forall t, x <> NExpr t) -> a <> 0) by (intros H0 ->; rewrite R in E; injection E as <-; now apply (H0 t0)).
    assert (Z : termlike x -> (forall t, x <> NExpr t) -> exists o t, node g o = Some (NOp t) /\ In a (children g o) /\ is_flag g a = false).
    { intros T NX. destruct (Q (NZ NX)) as (p & r & I & N). apply (P p r I N T); [intros t X0; now destruct (NX t)|exact F]. }
    destruct x; try discriminate; try (apply Z; [exact Logic.I|discriminate]).
    destruct (edges_in g a) as [|ed l] eqn:EI; [discriminate|].
    assert (I : In ed (edges_in g a)) by (rewrite EI; now left). apply in_edges_in in I. destruct I as (I & D). destruct ed as [p b r]. cbn in *. subst b.
    destruct (gd_typed G _ I) as (u & v & U & V & K). cbn [e_src e_dst e_rel] in U, V, K. rewrite E in V. injection V as <-.
    unfold is_op in A. rewrite U in A. destruct u; try discriminate. destruct r; cbn in K; try contradiction.
    + exists p, op. split; [exact U|]. split; [now apply in_children|exact F].
    + tauto.
  - intros (o & t & O & C & F). destruct (@op_child o t a O C) as (x & X & T). unfold is_arg. rewrite X. unfold is_flag in F. rewrite X in F.
    destruct x; try discriminate; try contradiction; try reflexivity.
    destruct (edges_in g a) as [|ed l] eqn:EI.
    + assert (I : In (Edge o a RNormal) (edges_in g a)) by (apply in_edges_in; split; [now apply in_children|reflexivity]). rewrite EI in I. destruct I.
    + assert (I : In ed (edges_in g a)) by (rewrite EI; now left). apply in_edges_in in I. destruct I as (I & D). destruct ed as [p b r]. cbn in *. subst b.
      destruct (gd_typed G _ I) as (u & v & U & V & K). cbn [e_src e_dst e_rel] in U, V, K. rewrite X in V. injection V as <-.
      destruct r; [|destruct u; cbn in K; contradiction|destruct K; contradiction].
      apply in_children in I. rewrite (child_unique p o a I C). unfold is_op. now rewrite O.
Qed.

(** ** What comes before *)
Lemma mid_in : forall (l : list nat) a r, In a (l ++ a :: r). Proof. intros. apply in_or_app. right. now left. Qed.
Lemma sorted_mid : forall (l : list nat) a b r, StronglySorted lt (l ++ a :: b :: r) -> a < b.
Proof.
  induction l as [|x l IH]; intros a b r S; cbn in S; inversion S; subst.
  - rewrite Forall_forall in H2. apply H2. now left.
  - eapply IH; eauto.
Qed.
Lemma cb_lt : forall a b, comes_before g a b -> a < b < sz g.
Proof.
  intros a b H. destruct H as [e t l a b r E C|e t a r E C|o t a O C F].
  - assert (In b (children g e)) as I by (rewrite C; apply in_or_app; right; right; now left). pose proof (child_lt _ _ I).
    pose proof (gd_srt G e) as S. rewrite C in S. apply sorted_mid in S. lia.
  - apply child_lt. rewrite C. now left.
  - now apply child_lt.
Qed.
Lemma nodup_split : forall (l l' : list nat) a r r', l ++ a :: r = l' ++ a :: r' -> NoDup (l ++ a :: r) -> l = l' /\ r = r'.
Proof.
  induction l as [|x l IH]; intros l' a r r' E N; destruct l' as [|y l']; cbn in *.
  - injection E as <-. auto.
  - injection E as -> ->. inversion N; subst. destruct H1. apply in_or_app. right. now left.
  - injection E as -> <-. inversion N; subst. destruct H1. apply in_or_app. right. now left.
  - injection E as <- E. inversion N; subst. destruct (IH _ _ _ _ E H2). subst. auto.
Qed.
Lemma cb_inv : forall a b, comes_before g a b ->
  (exists e t l r, node g e = Some (NExpr t) /\ children g e = l ++ a :: b :: r) \/
  (exists t r, node g a = Some (NExpr t) /\ children g a = b :: r) \/
  (exists t, node g a = Some (NOp t) /\ In b (children g a) /\ is_flag g b = false).
Proof. intros a b H. destruct H as [e t l a b r E C|e t a r E C|o t a O C F]; [left|right; left|right; right]; eauto 8. Qed.
Lemma in_two : forall (l : list nat) a b r, In b (l ++ a :: b :: r). Proof. intros. apply in_or_app. right. right. now left. Qed.
Lemma in_one : forall (b : nat) r, In b (b :: r). Proof. intros. now left. Qed.
Lemma cb_fun : forall a a' b, comes_before g a b -> comes_before g a' b -> a = a'.
Proof.
  assert (FST : forall e l a b r r', children g e = l ++ a :: b :: r -> children g e = b :: r' -> False).
  { intros e l a b r r' C C'. pose proof (children_nodup e) as N. rewrite C in C'.
    replace (l ++ a :: b :: r) with ((l ++ [a]) ++ b :: r) in C' by (now rewrite <- app_assoc).
    apply (@nodup_split _ [] b r r') in C'; [|rewrite <- app_assoc; rewrite C in N; exact N]. destruct C' as (C' & _). now destruct l. }
  intros a a' b H H'. apply cb_inv in H, H'.
  destruct H as [(e & t & l & r & E & C)|[(t & r & E & C)|(t & E & C & F)]], H' as [(e' & t' & l' & r' & E' & C')|[(t' & r' & E' & C')|(t' & E' & C' & F')]].
  - assert (e' = e) by (eapply child_unique; [rewrite C'; apply in_two|rewrite C; apply in_two]). subst e'.
    pose proof (children_nodup e) as N. rewrite C in C'.
    replace (l ++ a :: b :: r) with ((l ++ [a]) ++ b :: r) in C' by (now rewrite <- app_assoc).
    replace (l' ++ a' :: b :: r') with ((l' ++ [a']) ++ b :: r') in C' by (now rewrite <- app_assoc).
    apply nodup_split in C'; [|rewrite C in N; now rewrite <- app_assoc]. destruct C' as (C' & _). apply app_inj_tail in C'. tauto.
  - assert (a' = e) by (eapply child_unique; [rewrite C'; apply in_one|rewrite C; apply in_two]). subst a'. now destruct (FST _ _ _ _ _ _ C C').
  - assert (a' = e) by (eapply child_unique; [exact C'|rewrite C; apply in_two]). congruence.
  - assert (a = e') by (eapply child_unique; [rewrite C; apply in_one|rewrite C'; apply in_two]). subst a. now destruct (FST _ _ _ _ _ _ C' C).
  - eapply child_unique; [rewrite C; apply in_one|rewrite C'; apply in_one].
  - assert (a' = a) by (eapply child_unique; [exact C'|rewrite C; apply in_one]). congruence.
  - assert (a = e') by (eapply child_unique; [exact C|rewrite C'; apply in_two]). congruence.
  - assert (a = a') by (eapply child_unique; [exact C|rewrite C'; apply in_one]). congruence.
  - eapply child_unique; eauto.
Qed.

(** Every op and every argument has something before it. *)
Lemma cb_op : forall o t, node g o = Some (NOp t) -> exists m, comes_before g m o.
Proof.
  intros o t O. destruct (@op_has_parent o t O) as (e & te & E & I). apply in_split in I. destruct I as (l & r & C).
  destruct l as [|x l].
  - exists e. eapply cb_first; eauto.
  - assert (x :: l <> []) as NE by discriminate. destruct (exists_last NE) as (l' & a & X). rewrite X, <- app_assoc in C. cbn [app] in C. exists a. eapply cb_block; eauto.
Qed.
Lemma cb_kind : forall m n, comes_before g m n -> (is_op g n = true \/ is_arg g n = true).
Proof.
  intros m n H. destruct H as [e t l a b r E C|e t a r E C|o t a O C F].
  - left. destruct (@expr_child e t b E) as (x & X); [rewrite C; apply in_or_app; right; right; now left|]. unfold is_op. now rewrite X.
  - left. destruct (@expr_child e t a E) as (x & X); [rewrite C; now left|]. unfold is_op. now rewrite X.
  - right. apply is_arg_spec. eauto.
Qed.
Lemma cb_dec : forall n, (exists m, comes_before g m n) \/ (forall m, ~ comes_before g m n).
Proof.
  intros n. destruct (is_op g n) eqn:O.
  - left. unfold is_op in O. destruct (node g n) as [[t|? ?|? ?|?|?|? ?|? ?|?|?]|] eqn:E; try discriminate. eapply cb_op; eauto.
  - destruct (is_arg g n) eqn:A.
    + left. apply is_arg_spec in A. destruct A as (o & t & X & Y & Z). exists o. eapply cb_arg; eauto.
    + right. intros m H. apply cb_kind in H. destruct H; congruence.
Qed.
Lemma arg_not_op : forall a, is_arg g a = true -> is_op g a = false.
Proof.
  intros a A. apply is_arg_spec in A. destruct A as (o & t & X & Y & Z). destruct (@op_child o t a X Y) as (x & N & T).
  unfold is_op. rewrite N. destruct x; auto; contradiction.
Qed.

Lemma ahead_le : forall a b, ahead g a b -> a <= b.
Proof. intros a b H. induction H; [lia|]. apply cb_lt in H0. lia. Qed.
Lemma ahead_bound : forall a b, ahead g a b -> a < sz g -> b < sz g.
Proof. intros a b H L. induction H; [auto|]. now apply cb_lt in H0. Qed.
Lemma ahead_trans : forall a b c, ahead g a b -> ahead g b c -> ahead g a c.
Proof. intros a b c H H'. revert H. induction H' as [n|x y z H1 IH H2]; intros H; [auto|]. eapply ah_step; [apply IH; exact H|exact H2]. Qed.
Lemma ahead_chain : forall a b c, ahead g a c -> ahead g b c -> ahead g a b \/ ahead g b a.
Proof.
  intros a b c H. revert b. induction H as [n|a m c H IH S]; intros b H'.
  - now right.
  - inversion H' as [|? m' ? H2 S2]; subst.
    + left. eapply ah_step; eauto.
    + assert (m' = m) by (eapply cb_fun; eauto). subst. auto.
Qed.
Lemma siblings_apart : forall p a b k, comes_before g p a -> comes_before g p b -> ahead g a k -> ahead g b k -> a = b.
Proof.
  intros p a b k A B HA HB.
  assert (X : forall a b, comes_before g p a -> comes_before g p b -> ahead g a b -> a = b).
  { intros x y Hx Hy H. inversion H as [|? m ? H1 H2]; subst; [reflexivity|]. assert (m = p) by (eapply cb_fun; eauto). subst.
    apply ahead_le in H1. apply cb_lt in Hx. lia. }
  destruct (ahead_chain HA HB) as [H|H]; [eauto|]. symmetry. eauto.
Qed.
End G.

Lemma init_good : forall s e g cs, init s e = Ok (g, cs) -> good g.
Proof.
  intros s e g cs E. destruct (@init_typed s _ _ _ E) as (T & R). constructor.
  - exact (proj1 (init_complete s e g cs E)).
  - exact T.
  - eapply init_srt; eauto.
  - eauto.
Qed.
