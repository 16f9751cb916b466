(** Lookups in a finished graph. *)
From Coq Require Import String List ZArith NArith Bool Arith Lia.
From Verif Require Import Model.Base Model.Value Model.Ast Model.Registry Model.AstGraph Spec.AstGraphSpec Spec.RegistrySpec
  Proofs.RegistryProofs Proofs.AstFlatProofs Proofs.AstExpandProofs Proofs.AstGraphProofs.
Import ListNotations.

(** ** Arguments and flags *)
Lemma set_at_nil : forall a n, set_at [] a n = repeat None a ++ [Some n].
Proof. induction a as [|a IH]; intros n; cbn; [reflexivity|]. now rewrite IH. Qed.
Lemma set_at_gap : forall a l n, set_at (repeat None (S a) ++ l) a n = repeat None a ++ Some n :: l.
Proof. induction a as [|a IH]; intros l n; [reflexivity|]. cbn [repeat app set_at]. f_equal. apply (IH l n). Qed.

Definition lkf (a : nat) (ts : list nat) (c : nat) : list edge :=
  map (fun it => Edge (snd it) c (RTerm (N.of_nat (fst it) mod 256))) (combine (seq a (length ts)) ts).
Definition put (v : list (option nat)) (e : edge) : list (option nat) :=
  match e_rel e with RTerm i => set_at v (N.to_nat i) (e_src e) | _ => v end.
Lemma put_links : forall ts a c, (a + length ts <= 256)%nat ->
  fold_left put (rev (lkf a ts c)) [] = match ts with [] => [] | _ => repeat None a ++ map Some ts end.
Proof.
  induction ts as [|t ts IH]; intros a c L; [reflexivity|]. unfold lkf. cbn [length seq combine map rev].
  rewrite fold_left_app. change (map _ (combine (seq (S a) (length ts)) ts)) with (lkf (S a) ts c).
  rewrite IH by (cbn in L; lia). cbn [fold_left put e_rel e_src fst snd].
  assert (X : N.to_nat (N.of_nat a mod 256) = a). { rewrite N.mod_small; [apply Nat2N.id|]. cbn in L. lia. }
  rewrite X. destruct ts as [|t' ts]; [apply set_at_nil|]. cbn [map]. rewrite (set_at_gap a (map Some (t' :: ts))). reflexivity.
Qed.
Lemma rmapM_some : forall l, rmapM (fun x : option nat => match x with Some n => Ok n | None => Panic end) (map Some l) = Ok l.
Proof. induction l as [|x l IH]; [reflexivity|]. cbn [map rmapM rbind]. rewrite IH. reflexivity. Qed.

Lemma get_terms_spec : forall g o c k, inv g -> In (Edge o c (RKeyed k)) (g_edges g) -> (length (children g o) <= 256)%nat ->
  get_terms g c false = Ok (args_below g o) /\ get_terms g c true = Ok (flags_below g o).
Proof.
  intros g o c k I H L. destruct (i_cmd g I o c k H) as ((t & N) & E).
  assert (X : edges_in g c = rev (in_edges g c)) by (unfold edges_in, in_edges; apply filter_rev).
  assert (NF : is_flag g o = false) by (unfold is_flag; now rewrite N).
  assert (FL : forall q : nat -> bool, (length (filter q (children g o)) <= length (children g o))%nat).
  { intros q. clear. induction (children g o) as [|y l IHl]; [auto|]. cbn. destruct (q y); cbn; lia. }
  assert (FF : forall e, In e (lk (flags_below g o) c) -> is_flag g (e_src e) = true).
  { intros e Ie. apply lk_in in Ie. destruct Ie as (A & _). apply filter_In in A. tauto. }
  assert (FA : forall e, In e (lk (args_below g o) c) -> is_flag g (e_src e) = false).
  { intros e Ie. apply lk_in in Ie. destruct Ie as (A & _). apply filter_In in A. destruct A as [_ A]. now apply negb_true_iff. }
  assert (R : forall ts, (length ts <= 256)%nat ->
    rmapM (fun x : option nat => match x with Some n => Ok n | None => Panic end) (fold_left put (rev (lk ts c)) []) = Ok ts).
  { intros ts Lt. change (lk ts c) with (lkf 0 ts c). rewrite put_links by lia. destruct ts; [reflexivity|]. apply (rmapM_some (n :: ts)). }
  split; unfold get_terms; rewrite X, E, filter_rev; cbn [filter e_src]; rewrite NF, filter_app; cbn [Bool.eqb].
  - rewrite (filter_none _ _ (lk (flags_below g o) c)), (filter_all _ _ (lk (args_below g o) c)).
    + cbn [app rev]. rewrite fold_left_app. cbn [fold_left e_rel]. apply R. unfold args_below. specialize (FL (fun n => negb (is_flag g n))). lia.
    + intros e Ie. now rewrite (FA e Ie).
    + intros e Ie. now rewrite (FF e Ie).
  - rewrite (filter_all _ _ (lk (flags_below g o) c)), (filter_none _ _ (lk (args_below g o) c)).
    + rewrite app_nil_r. apply R. unfold flags_below. specialize (FL (is_flag g)). lia.
    + intros e Ie. now rewrite (FA e Ie).
    + intros e Ie. now rewrite (FF e Ie).
Qed.

Lemma shows_term_flag : forall g n t, shows_term g n t -> is_flag g n = is_flag_term t.
Proof. intros g n t H. unfold is_flag. inversion H; subst; try (now rewrite H0). inversion H0; subst. now rewrite H1. Qed.
Lemma shows_term_args : forall g ns ts, Forall2 (shows_term g) ns ts ->
  Forall2 (shows_term g) (filter (fun n => negb (is_flag g n)) ns) (filter (fun t => negb (is_flag_term t)) ts).
Proof.
  intros g ns ts H. induction H as [|n t ns ts H F IH]; [constructor|]. cbn. rewrite (shows_term_flag _ _ _ H).
  destruct (is_flag_term t); cbn; [auto|now constructor].
Qed.
Lemma shows_term_flags : forall g ns ts, Forall2 (shows_term g) ns ts ->
  rmapM (fun n => match node g n with Some (NFlag t) => Ok t | _ => Panic end) (filter (is_flag g) ns) =
  Ok (flat_map (fun t => match t with TFlag t => [t] | _ => [] end) ts).
Proof.
  intros g ns ts H. induction H as [|n t ns ts H F IH]; [reflexivity|]. cbn [filter flat_map]. rewrite (shows_term_flag _ _ _ H).
  destruct t as [a|t]; cbn [is_flag_term app]; [exact IH|]. cbn [rmapM]. inversion H; subst. rewrite H2. cbn [rbind]. rewrite IH. reflexivity.
Qed.

Lemma written_terms : forall s e g cs o c k b, init s e = Ok (g, cs) -> shows_block g o b -> In (k, c) (keyed g o) ->
  (length (blk_terms b) <= 256)%nat ->
  (exists ns, get_args g c = Ok ns /\ Forall2 (shows_term g) ns (filter (fun t => negb (is_flag_term t)) (blk_terms b))) /\
  get_flags g c = Ok (flat_map (fun t => match t with TFlag t => [t] | _ => [] end) (blk_terms b)).
Proof.
  intros s e g cs o c k b H Hb K L. destruct (init_complete _ _ _ _ H) as (I & _ & _). apply keyed_in in K.
  inversion Hb as [n0 b0 t N Eb F]; subst.
  assert (L2 : length (children g o) = length (blk_terms b)) by (clear -F; induction F; cbn; auto).
  destruct (get_terms_spec g o c k I K) as [A B]; [lia|]. split.
  - exists (args_below g o). split; [exact A|]. now apply shows_term_args.
  - unfold get_flags. rewrite B. cbn [rbind]. now apply shows_term_flags.
Qed.

(** ** The path to the root *)
Lemma find_filter : forall A (p : A -> bool) l, find p l = match filter p l with [] => None | x :: _ => Some x end.
Proof. induction l as [|x l IH]; [reflexivity|]. cbn. destruct (p x); [reflexivity|exact IH]. Qed.
Lemma parent_edge_spec : forall g n p, parents g n = [p] -> exists e, parent_edge g n = Some e /\ e_src e = p.
Proof.
  intros g n p H. unfold parent_edge. rewrite find_filter. unfold edges_in. rewrite filter_rev, filter_rev, filter_filter.
  unfold parents in H. destruct (filter _ (g_edges g)) as [|e [|e' l]] eqn:E; try discriminate. injection H as H. exists e. split; [reflexivity|auto].
Qed.
Lemma climb_spec : forall g, inv g -> forall fuel n acc, n <= fuel -> n < sz g ->
  exists p, climb fuel g n (n :: acc) = Ok (p ++ n :: acc) /\ nth_error (p ++ [n]) 0 = Some 0 /\
  forall i a b, nth_error (p ++ [n]) i = Some a -> nth_error (p ++ [n]) (S i) = Some b -> parents g b = [a].
Proof.
  intros g I. induction fuel as [|fuel IH]; intros n acc L Ln.
  - assert (n = 0) by lia. subst. exists []. split; [reflexivity|]. split; [reflexivity|]. intros [|i] a b; cbn; [|destruct i]; discriminate.
  - destruct n as [|n].
    + exists []. split; [reflexivity|]. split; [reflexivity|]. intros [|i] a b; cbn; [|destruct i]; discriminate.
    + destruct (i_tree g I (S n)) as (p & P); [lia|]. destruct (parent_edge_spec _ _ _ P) as (e & E & Es).
      assert (Le : e_src e < S n).
      { unfold parent_edge in E. apply find_some in E. destruct E as [E _]. unfold edges_in in E. apply filter_In in E. destruct E as [E D].
        apply Nat.eqb_eq in D. apply in_rev in E. apply (i_ord g I) in E. lia. }
      destruct (IH (e_src e) (S n :: acc)) as (q & Q1 & Q2 & Q3); [lia|lia|].
      exists (q ++ [e_src e]). cbn [climb]. rewrite E. split; [rewrite Q1, <- app_assoc; reflexivity|]. split.
      * destruct q; cbn in *; auto.
      * intros i a b A B.
        assert (LB : S i < length ((q ++ [e_src e]) ++ [S n])) by (apply nth_error_Some; congruence). rewrite app_length in LB. cbn in LB.
        destruct (Nat.eq_dec (S i) (length (q ++ [e_src e]))) as [Ei|Ei].
        -- rewrite nth_error_app2, Ei, Nat.sub_diag in B by lia. cbn in B. injection B as <-.
           rewrite nth_error_app1 in A by lia. assert (i = length q) by (rewrite app_length in Ei; cbn in Ei; lia). subst i.
           rewrite nth_error_app2, Nat.sub_diag in A by lia. cbn in A. injection A as <-. congruence.
        -- rewrite nth_error_app1 in A by lia. rewrite nth_error_app1 in B by lia. eauto.
Qed.
Lemma path_spec : forall s e g cs n, init s e = Ok (g, cs) -> n < length (g_nodes g) -> exists p, path_from_root g n = Ok p /\ root_path g n p.
Proof.
  intros s e g cs n H L. destruct (init_complete _ _ _ _ H) as (I & _ & _).
  destruct (climb_spec g I n n [] (le_n _) L) as (p & A & B & C). exists (p ++ [n]). split; [exact A|]. split; [exact B|]. split; [|exact C].
  rewrite app_length. cbn. replace (length p + 1 - 1) with (length p) by lia. now rewrite nth_error_app2, Nat.sub_diag by lia.
Qed.
Lemma one_parent : forall s e g cs, init s e = Ok (g, cs) ->
  parents g 0 = [] /\ (forall n, 0 < n < length (g_nodes g) -> exists p, parents g n = [p]) /\
  forall ed, In ed (g_edges g) -> e_src ed < e_dst ed < length (g_nodes g).
Proof.
  intros s e g cs H. destruct (init_complete _ _ _ _ H) as (I & _ & _). split; [|split; [apply (i_tree g I)|apply (i_ord g I)]].
  unfold parents. rewrite filter_none; [reflexivity|]. intros x Ix. apply (i_ord g I) in Ix.
  assert (Nat.eqb (e_dst x) 0 = false) as -> by (apply Nat.eqb_neq; lia). reflexivity.
Qed.

(** ** Implementations *)
Definition ty_match (t : ty) (p : option ty * nat) : bool := match fst p with Some t' => ty_eqb t' t | None => false end.
Definition none_match (p : option ty * nat) : bool := match fst p with Some t' => false | None => true end.
Definition keyed_es (l : list edge) : list (option ty * nat) :=
  flat_map (fun e => match e_rel e with RKeyed k => [(k, e_dst e)] | _ => [] end) l.
Lemma keyed_edges_es : forall g o, keyed_es (edges g o) = rev (keyed g o).
Proof.
  intros g o. unfold edges, keyed. induction (g_edges g) as [|e l IH]; [reflexivity|]. cbn [rev flat_map].
  rewrite filter_app. unfold keyed_es in *. rewrite flat_map_app, IH, rev_app_distr. f_equal. cbn.
  destruct (Nat.eqb (e_src e) o); cbn; destruct (e_rel e); reflexivity.
Qed.
Lemma pick_keyed : forall t l fb, pick_impl t l fb =
  match find (ty_match t) (keyed_es l) with
  | Some p => Some (snd p)
  | None => match find none_match (rev (keyed_es l)) with Some p => Some (snd p) | None => fb end
  end.
Proof.
  intros t. induction l as [|e l IH]; intros fb; [reflexivity|]. cbn [pick_impl keyed_es flat_map]. fold (keyed_es l).
  destruct (e_rel e) as [|[t'|]|i]; cbn [app]; auto.
  - cbn [find ty_match fst]. destruct (ty_eqb t' t); [reflexivity|]. rewrite IH. destruct (find (ty_match t) (keyed_es l)); [reflexivity|].
    cbn [rev]. assert (X : forall l1 x, none_match x = false -> find none_match (l1 ++ [x]) = find none_match l1).
    { clear. induction l1 as [|y l1 IH]; intros x H; cbn; [now rewrite H|]. destruct (none_match y); [reflexivity|auto]. }
    rewrite X by reflexivity. reflexivity.
  - cbn [find ty_match fst]. rewrite IH. destruct (find (ty_match t) (keyed_es l)); [reflexivity|]. cbn [rev].
    assert (X : forall l1 x, none_match x = true -> find none_match (l1 ++ [x]) = match find none_match l1 with Some p => Some p | None => Some x end).
    { clear. induction l1 as [|y l1 IH]; intros x H; cbn; [now rewrite H|]. destruct (none_match y); [reflexivity|auto]. }
    rewrite X by reflexivity. destruct (find none_match (rev (keyed_es l))); reflexivity.
Qed.
Lemma graph_impl_keyed : forall g o t, graph_impl g o t =
  match find (ty_match t) (rev (keyed g o)) with
  | Some p => Some (snd p)
  | None => option_map snd (find none_match (keyed g o))
  end.
Proof.
  intros. unfold graph_impl. rewrite pick_keyed, keyed_edges_es, rev_involutive.
  destruct (find (ty_match t) _); [reflexivity|]. destruct (find none_match _); reflexivity.
Qed.

Lemma kept_in : forall P l m e, kept_of P l m -> In e l -> In e m \/ exists t d, e = (Some t, IDef d) /\ P t.
Proof.
  intros P l m e K. induction K; intros I; [destruct I| |].
  - destruct I as [->|I]; [left; now left|]. destruct (IHK I); [left; now right|auto].
  - destruct I as [<-|I]; [right; eauto|auto].
Qed.
Lemma kept_of_app_none : forall P l m i, kept_of P l m -> In (None, i) l -> In (None, i) m.
Proof. intros P l m i K I. destruct (kept_in _ _ _ _ K I) as [|(t & d & E & _)]; [auto|discriminate]. Qed.
Lemma kept_sub : forall P l m e, kept_of P l m -> In e m -> In e l.
Proof. intros P l m e K. induction K; intros I; [destruct I| |]; [destruct I as [->|I]; [now left|right; auto]|right; auto]. Qed.

Lemma graph_impl_spec : forall s e g cs o t, init s e = Ok (g, cs) -> wf_impls (df_impls s) -> node g o = Some (NOp t) -> forall ty,
  match at_key (df_impls s) (tg_str t) (Some ty), at_key (df_impls s) (tg_str t) None with
  | Some i, any =>
      (exists c, graph_impl g o ty = Some c /\ shows_impl g c i) \/
      (exists key d, i = IDef d /\ ty_eqb key ty = true /\ recursive_use g o t key /\
         match any with Some j => exists c, graph_impl g o ty = Some c /\ shows_impl g c j | None => graph_impl g o ty = None end)
  | None, Some i => exists c, graph_impl g o ty = Some c /\ shows_impl g c i
  | None, None => graph_impl g o ty = None
  end.
Proof.
  intros s e g cs o t H W N ty. destruct (init_complete _ _ _ _ H) as (I & _ & SO). destruct (SO o t N) as (k & ps & Ik & K & Ke & F).
  rewrite !at_key_kat. unfold kat. destruct W as [ND TU].
  assert (Lk : alookup str_eqb (tg_str t) (df_impls s) = Some k).
  { clear -ND Ik. induction (df_impls s) as [|[a b] m IH]; [destruct Ik|]. cbn in *. inversion ND; subst. destruct (str_eqb_spec a (tg_str t)) as [->|ne].
    - destruct Ik as [Ik|Ik]; [congruence|]. exfalso. apply H1. change (tg_str t) with (fst (tg_str t, k)). now apply in_map.
    - destruct Ik as [Ik|Ik]; [congruence|auto]. }
  rewrite Lk. cbn [keys_at]. rewrite graph_impl_keyed, Ke. rewrite Forall_forall in F.
  assert (ANY : match k_any k with Some j => exists c, option_map snd (find none_match (map (fun p => (fst (fst p), snd p)) ps)) = Some c /\ shows_impl g c j
                | None => option_map snd (find none_match (map (fun p : option Value.ty * impl * nat => (fst (fst p), snd p)) ps)) = None end).
  { destruct (find none_match (map _ ps)) as [p|] eqn:E.
    - apply find_some in E. destruct E as [E M]. apply in_map_iff in E. destruct E as ([[key i] c] & <- & E). cbn in M. destruct key; [discriminate|].
      assert (R : In (None, i) (registered k)) by (eapply kept_sub; [exact K|]; apply (in_map fst) in E; exact E).
      unfold registered in R. apply in_app_or in R. destruct R as [R|R]; [apply in_map_iff in R; destruct R as (? & R & _); discriminate|].
      destruct (k_any k) as [j|]; [|destruct R]. destruct R as [R|[]]. injection R as ->. exists c. split; [reflexivity|]. apply (F _ E).
    - destruct (k_any k) as [j|] eqn:Ej; [|reflexivity]. exfalso.
      assert (R : In (None, j) (map fst ps)).
      { eapply kept_of_app_none; [exact K|]. unfold registered. rewrite Ej. apply in_or_app. right. now left. }
      apply in_map_iff in R. destruct R as ([ee c] & Ee & R). cbn in Ee. subst ee.
      assert (Q : In (None, c) (map (fun p : option Value.ty * impl * nat => (fst (fst p), snd p)) ps)) by (apply in_map_iff; exists ((None, j), c); auto).
      apply (find_none _ _ E) in Q. discriminate. }
  destruct (find (ty_match ty) (rev (map (fun p => (fst (fst p), snd p)) ps))) as [p|] eqn:E.
  - apply find_some in E. destruct E as [E M]. apply in_rev in E. apply in_map_iff in E. destruct E as ([[key i] c] & <- & E).
    cbn in M. destruct key as [t'|]; [|discriminate].
    assert (R : In (Some t', i) (registered k)) by (eapply kept_sub; [exact K|]; apply (in_map fst) in E; exact E).
    unfold registered in R. apply in_app_or in R. destruct R as [R|R]; [|destruct (k_any k); [destruct R as [R|[]]; discriminate|destruct R]].
    apply in_map_iff in R. destruct R as ([t2 i2] & R2 & R). cbn in R2. injection R2 as -> ->.
    assert (AL : alookup ty_eqb ty (k_tys k) = Some i).
    { destruct (alookup ty_eqb ty (k_tys k)) as [i'|] eqn:Ea.
      - apply alookup_in in Ea. destruct Ea as (t3 & I3 & M3). destruct (In_nth_error _ _ R) as [a Ha]. destruct (In_nth_error _ _ I3) as [b Hb].
        assert (a = b). { apply (TU _ _ Ik _ _ _ _ Ha Hb). cbn. rewrite ty_eqb_sym in M3. exact (ty_eqb_trans _ _ _ M M3). }
        subst b. congruence.
      - exfalso. clear -Ea R M. induction (k_tys k) as [|[a b] l IH]; [destruct R|]. cbn in Ea. change (ty_eqb t' ty = true) in M. destruct (ty_eqb a ty) eqn:E; [discriminate|].
        destruct R as [R|R]; [injection R as -> ->; rewrite M in E; discriminate|auto]. }
    rewrite AL. left. exists c. split; [reflexivity|]. apply (F _ E).
  - destruct (alookup ty_eqb ty (k_tys k)) as [i|] eqn:Ea; [|exact ANY]. right.
    apply alookup_in in Ea. destruct Ea as (t3 & I3 & M3).
    assert (R : In (Some t3, i) (registered k)).
    { unfold registered. apply in_or_app. left. apply in_map_iff. exists (t3, i). auto. }
    destruct (kept_in _ _ _ _ K R) as [R'|(t4 & d & R' & U)].
    + exfalso. apply in_map_iff in R'. destruct R' as ([ee c] & Ee & R'). cbn in Ee. subst ee.
      assert (Q : In (Some t3, c) (rev (map (fun p => (fst (fst p), snd p)) ps))).
      { apply in_rev. rewrite rev_involutive. apply in_map_iff. exists ((Some t3, i), c). auto. }
      apply (find_none _ _ E) in Q. cbn in Q. congruence.
    + injection R' as <- ->. exists t3, d. split; [auto|]. split; [auto|]. split; [auto|]. exact ANY.
Qed.
