(** What the expression graph looks like around a node, for building the type graph. *)
From Coq Require Import String List ZArith NArith Bool Arith Lia Sorted.
From Verif Require Import Model.Base Model.Value Model.Ast Model.Registry Model.AstGraph Model.TyBuild Spec.AstGraphSpec Spec.RegistrySpec.
From Verif Require Import Proofs.AstFlatProofs Proofs.AstExpandProofs Proofs.AstGraphProofs Proofs.AstLookupProofs Proofs.AstTypedProofs.
Import ListNotations.

(** ** Positions of terms beyond 256 *)
Definition pad (a : nat) (v : list (option nat)) : list (option nat) := firstn a v ++ repeat None (a - length v).
Lemma set_at_pad : forall a v t, length v <= S a -> set_at v a t = pad a v ++ [Some t].
Proof.
  unfold pad. induction a as [|a IH]; intros v t L; destruct v as [|x v].
  - reflexivity.
  - destruct v; [reflexivity|cbn in L; lia].
  - specialize (IH [] t ltac:(cbn; lia)). rewrite firstn_nil in *. cbn [length app set_at] in *. rewrite IH, !Nat.sub_0_r. reflexivity.
  - specialize (IH v t ltac:(cbn in L; lia)). cbn [set_at firstn length app Nat.sub]. now rewrite IH.
Qed.
Lemma set_at_under : forall a v t rest, set_at (pad (S a) v ++ rest) a t = pad a v ++ Some t :: rest.
Proof.
  unfold pad. induction a as [|a IH]; intros v t rest; destruct v as [|x v].
  - reflexivity.
  - reflexivity.
  - specialize (IH [] t rest). rewrite !firstn_nil in *. cbn [length app] in *. rewrite !Nat.sub_0_r in *. cbn [repeat app set_at] in *. now rewrite IH.
  - specialize (IH v t rest). change (firstn (S (S a)) (x :: v)) with (x :: firstn (S a) v). change (firstn (S a) (x :: v)) with (x :: firstn a v).
    cbn [length app set_at Nat.sub] in *. now rewrite IH.
Qed.
Lemma put_links_over : forall ts a c v, (a + length ts <= 256)%nat -> (length v <= a + length ts)%nat ->
  fold_left put (rev (lkf a ts c)) v = match ts with [] => v | _ => pad a v ++ map Some ts end.
Proof.
  induction ts as [|t ts IH]; intros a c v L Lv; [reflexivity|]. unfold lkf. cbn [length seq combine map rev].
  rewrite fold_left_app. change (map _ (combine (seq (S a) (length ts)) ts)) with (lkf (S a) ts c).
  rewrite IH by (cbn in L, Lv; lia). cbn [fold_left put e_rel e_src fst snd].
  assert (X : N.to_nat (N.of_nat a mod 256) = a). { rewrite N.mod_small; [apply Nat2N.id|]. cbn in L. lia. }
  rewrite X. destruct ts as [|t' ts]; [apply set_at_pad; cbn in Lv; lia|]. cbn [map]. apply set_at_under.
Qed.
Lemma set_at_length : forall i v n k, (length v <= k)%nat -> (i < k)%nat -> (length (set_at v i n) <= k)%nat.
Proof.
  induction i as [|i IH]; intros [|x v] n k L Lt; cbn in *; try lia.
  - destruct k as [|k]; [lia|]. apply le_n_S. apply IH; cbn; lia.
  - destruct k as [|k]; [lia|]. apply le_n_S. apply IH; lia.
Qed.
Lemma put_length : forall es v, (forall e i, In e es -> e_rel e = RTerm i -> (i < 256)%N) -> (length v <= 256)%nat -> (length (fold_left put es v) <= 256)%nat.
Proof.
  induction es as [|e es IH]; intros v H L; [exact L|]. cbn [fold_left]. apply IH; [intros e1 i1 I1; apply (H e1 i1); now right|].
  unfold put. destruct (e_rel e) as [| |i] eqn:E; auto. apply set_at_length; [exact L|]. specialize (H e i (or_introl eq_refl) E). lia.
Qed.
Lemma lkf_app : forall l1 l2 a c, lkf a (l1 ++ l2) c = lkf a l1 c ++ lkf (a + length l1) l2 c.
Proof.
  induction l1 as [|x l1 IH]; intros l2 a c; [cbn; now rewrite Nat.add_0_r|].
  unfold lkf in *. cbn [app length seq combine map]. f_equal. rewrite (IH l2 (S a) c). cbn [length]. now rewrite Nat.add_succ_r.
Qed.
Lemma lkf_term : forall l a c e i, In e (lkf a l c) -> e_rel e = RTerm i -> (i < 256)%N.
Proof.
  intros l a c e i I E. unfold lkf in I. apply in_map_iff in I. destruct I as (p & <- & _). cbn in E. injection E as <-. now apply N.mod_lt.
Qed.
Lemma put_links_all : forall ts c, fold_left put (rev (lkf 0 ts c)) [] = map Some (firstn 256 ts).
Proof.
  intros ts c. rewrite <- (firstn_skipn 256 ts) at 1. rewrite lkf_app, rev_app_distr, fold_left_app.
  set (v := fold_left put (rev (lkf _ (skipn 256 ts) c)) []).
  assert (Lv : (length v <= length (firstn 256 ts))%nat).
  { destruct (Nat.le_gt_cases 256 (length ts)) as [H|H].
    - rewrite firstn_length_le by lia. apply put_length; [|cbn; lia]. intros e i I. apply in_rev in I. now apply lkf_term with (1 := I).
    - subst v. rewrite skipn_all2 by lia. cbn. lia. }
  assert (L := firstn_le_length 256 ts). rewrite put_links_over by lia. destruct (firstn 256 ts) as [|x l].
  - destruct v; [reflexivity|cbn in Lv; lia].
  - unfold pad. cbn [firstn Nat.sub repeat app]. reflexivity.
Qed.

Lemma get_terms_all : forall g o c k, inv g -> In (Edge o c (RKeyed k)) (g_edges g) ->
  get_terms g c false = Ok (firstn 256 (args_below g o)) /\ get_terms g c true = Ok (firstn 256 (flags_below g o)).
Proof.
  intros g o c k I H. destruct (i_cmd g I o c k H) as ((t & N) & E).
  assert (X : edges_in g c = rev (in_edges g c)) by (unfold edges_in, in_edges; apply filter_rev).
  assert (NF : is_flag g o = false) by (unfold is_flag; now rewrite N).
  assert (FF : forall e, In e (lk (flags_below g o) c) -> is_flag g (e_src e) = true).
  { intros e Ie. apply lk_in in Ie. destruct Ie as (A & _). apply filter_In in A. tauto. }
  assert (FA : forall e, In e (lk (args_below g o) c) -> is_flag g (e_src e) = false).
  { intros e Ie. apply lk_in in Ie. destruct Ie as (A & _). apply filter_In in A. destruct A as [_ A]. now apply negb_true_iff. }
  assert (R : forall ts,
    rmapM (fun x : option nat => match x with Some n => Ok n | None => Panic end) (fold_left put (rev (lk ts c)) []) = Ok (firstn 256 ts)).
  { intros ts. change (lk ts c) with (lkf 0 ts c). rewrite put_links_all. apply rmapM_some. }
  split; unfold get_terms; rewrite X, E, filter_rev; cbn [filter e_src]; rewrite NF, filter_app; cbn [Bool.eqb].
  - rewrite (filter_none _ _ (lk (flags_below g o) c)), (filter_all _ _ (lk (args_below g o) c)).
    + cbn [app rev]. rewrite fold_left_app. cbn [fold_left e_rel]. apply R.
    + intros e Ie. now rewrite (FA e Ie).
    + intros e Ie. now rewrite (FF e Ie).
  - rewrite (filter_all _ _ (lk (flags_below g o) c)), (filter_none _ _ (lk (args_below g o) c)).
    + rewrite app_nil_r. apply R.
    + intros e Ie. now rewrite (FA e Ie).
    + intros e Ie. now rewrite (FF e Ie).
Qed.

(** What is used of a graph made from an expression. *)
Record made (m : impls) (g : graph) : Prop := {
  m_inv : inv g; m_typed : typed g; m_root : exists t, node g 0 = Some (NExpr t);
  m_ops : forall o t, node g o = Some (NOp t) -> shows_op m g o t }.
Lemma init_made : forall s e g cs, init s e = Ok (g, cs) -> made (df_impls s) g.
Proof.
  intros s e g cs H. destruct (init_complete s e g cs H) as (A & _ & B). destruct (init_typed s e H) as (C & D). constructor; eauto.
Qed.

Section G.
Variables (m : impls) (g : graph).
Hypothesis M : made m g.

Lemma edge_node : forall e, In e (g_edges g) -> exists a b, node g (e_src e) = Some a /\ node g (e_dst e) = Some b /\ kinds (e_rel e) a b.
Proof. intros e I. exact (m_typed _ _ M e I). Qed.
Lemma node_lt : forall n x, node g n = Some x -> n < sz g.
Proof. intros n x H. apply nth_error_Some. unfold node in H. congruence. Qed.

Lemma parent_edges : forall n, 0 < n < sz g -> exists e, In e (g_edges g) /\ e_dst e = n /\ (forall i, e_rel e <> RTerm i) /\
  forall e', In e' (g_edges g) -> e_dst e' = n -> (forall i, e_rel e' <> RTerm i) -> e' = e.
Proof.
  intros n L. destruct (i_tree g (m_inv _ _ M) n L) as (p & P). unfold parents in P.
  set (f := fun e => Nat.eqb (e_dst e) n && match e_rel e with RTerm _ => false | _ => true end) in P.
  destruct (filter f (g_edges g)) as [|e [|]] eqn:F; try discriminate.
  assert (Q : forall e', In e' (g_edges g) -> f e' = true -> e' = e).
  { intros e' I T. assert (X : In e' (filter f (g_edges g))) by (apply filter_In; auto). rewrite F in X. destruct X as [->|[]]. reflexivity. }
  assert (X : In e (filter f (g_edges g))) by (rewrite F; now left). apply filter_In in X. destruct X as (I & T).
  unfold f in T. apply andb_prop in T. destruct T as (T1 & T2). apply Nat.eqb_eq in T1. exists e. split; [auto|]. split; [auto|]. split.
  - intros i E. rewrite E in T2. discriminate.
  - intros e' I' D R. apply Q; auto. unfold f. rewrite D, Nat.eqb_refl. destruct (e_rel e') as [| |i]; auto. destruct (R i eq_refl).
Qed.

(** Ops below an expression. *)
Lemma op_neighbors_eq : forall n t, node g n = Some (NExpr t) -> op_neighbors g n = rev (children g n).
Proof.
  intros n t N. unfold op_neighbors, neighbors, edges, children. rewrite filter_rev, map_rev, filter_rev. f_equal.
  rewrite map_filter, filter_filter. f_equal. apply filter_ext_in. intros e I.
  destruct (Nat.eqb_spec (e_src e) n) as [E|E]; [|reflexivity]. cbn [andb]. destruct (edge_node e I) as (a & b & A & B & K).
  rewrite E, N in A. injection A as <-. unfold at_is. rewrite B. destruct (e_rel e); cbn in K.
  - destruct b; try contradiction. reflexivity.
  - contradiction.
  - destruct K as (_ & K). destruct b; try contradiction; reflexivity.
Qed.
Lemma child_of_expr : forall n t o, node g n = Some (NExpr t) -> In o (children g n) -> exists t', node g o = Some (NOp t').
Proof.
  intros n t o N I. apply in_children in I. destruct (edge_node _ I) as (a & b & A & B & K). cbn [e_src e_dst e_rel] in *. rewrite N in A. injection A as <-.
  destruct b; try contradiction. eauto.
Qed.
Lemma child_of_op : forall n t o, node g n = Some (NOp t) -> In o (children g n) -> exists x, node g o = Some x /\ termlike x.
Proof.
  intros n t o N I. apply in_children in I. destruct (edge_node _ I) as (a & b & A & B & K). cbn [e_src e_dst e_rel] in *. rewrite N in A. injection A as <-. eauto.
Qed.
Lemma child_of_def : forall n t ps o, node g n = Some (NDef t ps) -> In o (children g n) -> exists t', node g o = Some (NExpr t').
Proof.
  intros n t ps o N I. apply in_children in I. destruct (edge_node _ I) as (a & b & A & B & K). cbn [e_src e_dst e_rel] in *. rewrite N in A. injection A as <-.
  destruct b; try contradiction. eauto.
Qed.

(** The parent of a term. *)
Lemma term_parent : forall n x, node g n = Some x -> termlike x -> n <> 0 -> (forall t, x <> NExpr t) ->
  exists o t, node g o = Some (NOp t) /\ arg_op g n = Ok o /\ In n (children g o) /\ forall o', In n (children g o') -> o' = o.
Proof.
  intros n x N Tx Z NX. destruct (parent_edges n) as (e & I & D & R & U); [split; [lia|now apply node_lt with x]|].
  destruct (edge_node e I) as (a & b & A & B & K). rewrite D, N in B. injection B as <-.
  assert (E : e_rel e = RNormal). { destruct (e_rel e); auto; cbn in K; [destruct a, x; contradiction|destruct (R i eq_refl)]. }
  rewrite E in K. assert (exists t, a = NOp t) as (t & ->).
  { destruct a; try contradiction; eauto; destruct x; try contradiction; exfalso; eapply NX; reflexivity. }
  exists (e_src e), t. split; [auto|]. split; [|split].
  - unfold arg_op. destruct (find _ _) as [e'|] eqn:F.
    + apply find_some in F. destruct F as (F & P). unfold edges_in in F. apply filter_In in F. destruct F as (F & G). apply in_rev in F.
      apply Nat.eqb_eq in G. f_equal. f_equal. apply U; auto. intros i Q. rewrite Q in P. discriminate.
    + exfalso. assert (P := find_none _ _ F e). cbn in P. rewrite E in P. discriminate P. unfold edges_in. apply filter_In. split; [now apply in_rev in I|].
      now apply Nat.eqb_eq.
  - apply in_children. destruct e as [x1 x2 x3]. cbn in *. subst. exact I.
  - intros o' H. apply in_children in H. assert (Q := U _ H eq_refl). cbn in Q. rewrite <- Q; [reflexivity|]. intros i; discriminate.
Qed.

(** The op of an implementation. *)
Lemma cmd_parent_ok : forall n x, node g n = Some x -> cmdlike x ->
  exists o t k, node g o = Some (NOp t) /\ cmd_parent g n = Ok o /\ In (k, n) (keyed g o) /\ find_edge g o n = Ok (Edge o n (RKeyed k)) /\
  forall o' k', In (k', n) (keyed g o') -> o' = o /\ k' = k.
Proof.
  intros n x N Cx. assert (Z : n <> 0). { intros ->. destruct (m_root _ _ M) as (t & H). rewrite H in N. injection N as <-. exact Cx. }
  destruct (parent_edges n) as (e & I & D & R & U); [split; [lia|now apply node_lt with x]|].
  destruct (edge_node e I) as (a & b & A & B & K). rewrite D, N in B. injection B as <-.
  destruct (e_rel e) as [|k|i] eqn:E; [|clear R|destruct (R i eq_refl)].
  { exfalso. destruct a, x; contradiction. }
  assert (exists t, a = NOp t) as (t & ->) by (destruct a; try contradiction; eauto).
  assert (IE : In (Edge (e_src e) n (RKeyed k)) (g_edges g)) by (destruct e as [x1 x2 x3]; cbn in *; subst; exact I).
  exists (e_src e), t, k. split; [auto|]. split; [|split; [now apply keyed_in|split]].
  - unfold cmd_parent. destruct (find _ _) as [e'|] eqn:F.
    + apply find_some in F. destruct F as (F & P). unfold edges_in in F. apply filter_In in F. destruct F as (F & G). apply in_rev in F.
      apply Nat.eqb_eq in G. f_equal. f_equal. apply U; auto. intros i Q. rewrite Q in P. discriminate.
    + exfalso. assert (P := find_none _ _ F e). cbn in P. rewrite E in P. discriminate P. unfold edges_in. apply filter_In. split; [now apply in_rev in I|].
      now apply Nat.eqb_eq.
  - unfold find_edge. destruct (find _ _) as [e'|] eqn:F.
    + apply find_some in F. destruct F as (F & P). unfold edges in F. apply filter_In in F. destruct F as (F & G). apply in_rev in F.
      apply Nat.eqb_eq in G, P. f_equal. assert (Q : e' = e).
      { apply U; auto. intros i Q. destruct (edge_node e' F) as (a' & b' & A' & B' & K'). rewrite G, A in A'. injection A' as <-.
        rewrite Q in K'. destruct K' as (K' & _). exact K'. }
      subst e'. destruct e as [x1 x2 x3]. cbn in *. subst. reflexivity.
    + exfalso. assert (P := find_none _ _ F e). cbn in P. rewrite D, Nat.eqb_refl in P. discriminate P. unfold edges. apply filter_In.
      split; [now apply in_rev in I|apply Nat.eqb_refl].
  - intros o' k' H. apply keyed_in in H. assert (Q := U _ H eq_refl). cbn in Q. rewrite <- Q in E by (intros i; discriminate). cbn in E.
    injection E as <-. rewrite <- Q by (intros i; discriminate). auto.
Qed.

Lemma cmds_eq : forall o, cmds g o = rev (map snd (keyed g o)).
Proof.
  intros o. unfold cmds, edges, keyed. rewrite filter_rev, filter_rev, map_rev. f_equal. induction (g_edges g) as [|[a b r] l IH]; [reflexivity|].
  cbn [filter flat_map e_src e_rel]. rewrite map_app, <- IH. destruct (Nat.eqb_spec a o) as [->|NE]; cbn [filter e_rel is_key]; destruct r; reflexivity.
Qed.

Lemma keyed_cmd : forall o k c, In (k, c) (keyed g o) -> (exists t, node g o = Some (NOp t)) /\ exists x, node g c = Some x /\ cmdlike x.
Proof.
  intros o k c H. apply keyed_in in H. destruct (edge_node _ H) as (a & b & A & B & K). cbn in *. destruct a; try contradiction. eauto.
Qed.

(** The expression of a definition. *)
Lemma def_expr_ok : forall d t ps, node g d = Some (NDef t ps) -> exists x t', def_expr g d = Ok x /\ children g d = [x] /\ node g x = Some (NExpr t').
Proof.
  intros d t ps N. destruct (cmd_parent_ok d _ N I) as (o & to & k & No & _ & K & _).
  destruct (m_ops _ _ M o to No) as (ks & l & _ & _ & E & F). rewrite E in K. apply in_map_iff in K. destruct K as (p & Ep & Ip).
  rewrite Forall_forall in F. specialize (F p Ip). injection Ep as _ Ed. rewrite Ed in F. unfold shows_impl in F.
  destruct (snd (fst p)) as [f|di]; [destruct F as (t' & F); congruence|]. destruct F as (_ & x & C & _).
  assert (Ix : In x (children g d)) by (rewrite C; now left). destruct (child_of_def _ _ _ _ N Ix) as (t' & Nx).
  exists x, t'. split; [|auto]. unfold def_expr. assert (Q : neighbors g d = rev (children g d)); [|rewrite Q, C; reflexivity].
  unfold neighbors, edges, children. rewrite filter_rev, map_rev. f_equal. f_equal. apply filter_ext_in. intros e I0.
  destruct (Nat.eqb_spec (e_src e) d) as [E0|E0]; [|reflexivity]. destruct (edge_node e I0) as (a & b & A & B & K). rewrite E0, N in A. injection A as <-.
  destruct (e_rel e); cbn in K; try contradiction; [reflexivity|]. destruct K as (K & _). contradiction.
Qed.

Lemma get_args_all : forall o k c, In (k, c) (keyed g o) -> get_args g c = Ok (firstn 256 (args_below g o)).
Proof. intros o k c H. apply keyed_in in H. exact (proj1 (get_terms_all g o c k (m_inv _ _ M) H)). Qed.
End G.
