(** The knowledge at the nodes of the first type graph. *)
From Coq Require Import String List ZArith NArith Bool Arith Lia.
From Verif Require Import Model.Base Model.Value Model.Ast Model.Registry Model.AstGraph Model.TyBuild Spec.AstGraphSpec Spec.RegistrySpec Spec.TyBuildSpec.
From Verif Require Import Proofs.RegistryProofs Proofs.AstFlatProofs Proofs.AstExpandProofs Proofs.AstTypedProofs Proofs.TyBuildBase Proofs.TyBuildEdges.
From Verif Require Model.TyGraph Proofs.TyGraphProofs.
Import ListNotations.

Lemma tkey_eqb_eq : forall a b, tkey_eqb a b = true <-> a = b.
Proof. intros [] []; cbn; try (split; congruence). rewrite str_eqb_eq. split; congruence. Qed.
Definition mem_in := TyGraphProofs.mem_in tkey tkey_eqb tkey_eqb_eq.

Lemma insert_in : forall k l x, In x (snd (TyGraph.ts_insert tkey_eqb k l)) <-> x = k \/ In x l.
Proof.
  intros k l x. unfold TyGraph.ts_insert. destruct (TyGraph.mem tkey_eqb k l) eqn:E; cbn [snd In].
  - apply mem_in in E. split; [auto|intros [->|H]; auto].
  - split; intros [H|H]; auto.
Qed.
Lemma insert_nodup : forall k l, NoDup l -> NoDup (snd (TyGraph.ts_insert tkey_eqb k l)).
Proof.
  intros k l H. unfold TyGraph.ts_insert. destruct (TyGraph.mem tkey_eqb k l) eqn:E; cbn [snd]; [auto|]. constructor; [|auto].
  intros I. apply mem_in in I. congruence.
Qed.
Lemma fold_insert : forall (ts : types) l, NoDup l -> let r := fold_left (fun l e => snd (TyGraph.ts_insert tkey_eqb (key_of (ent_ty (snd e))) l)) ts l in
  NoDup r /\ forall k, In k r <-> In k l \/ exists e, In e ts /\ key_of (ent_ty (snd e)) = k.
Proof.
  induction ts as [|e ts IH]; intros l N; cbn [fold_left]; [split; [auto|]; intros k; split; [auto|intros [H|(x & [] & _)]; auto]|].
  destruct (IH _ (insert_nodup (key_of (ent_ty (snd e))) l N)) as (A & B). split; [exact A|]. intros k. rewrite B, insert_in. split.
  - intros [[->|H]|(x & I & E)]; [right; exists e; split; [now left|auto]|auto|right; exists x; split; [now right|auto]].
  - intros [H|(x & [<-|I] & E)]; [auto|left; left; auto|right; eauto].
Qed.
Lemma full_spec : forall ts, NoDup (full ts) /\ forall k, In k (full ts) <-> exists e, In e ts /\ key_of (ent_ty (snd e)) = k.
Proof.
  intros ts. destruct (fold_insert ts [] (NoDup_nil _)) as (A & B). split; [exact A|]. intros k. unfold full. rewrite B. cbn [In]. split; [intros [[]|H]; auto|auto].
Qed.
Lemma get_type_full : forall ts n t, get_type ts n = Some t -> In (key_of t) (full ts).
Proof.
  intros ts n t H. unfold get_type in H. destruct (alookup str_eqb n ts) as [e|] eqn:E; [|discriminate]. injection H as <-.
  destruct (alookup_in _ _ str_eqb _ _ _ E) as (n' & I & _). apply full_spec. exists (n', e). auto.
Qed.
(** With one entry for each name these are the types that can be looked up. *)
Lemma full_types : forall ts, NoDup (map fst ts) -> forall k, In k (full ts) <-> exists n t, get_type ts n = Some t /\ key_of t = k.
Proof.
  intros ts N k. split.
  - intros H. apply full_spec in H. destruct H as ([n e] & I & E). exists n, (ent_ty e). split; [|exact E]. unfold get_type.
    assert (A : alookup str_eqb n ts = Some e); [|now rewrite A]. clear E. induction ts as [|[m e'] ts IH]; [destruct I|]. cbn [alookup]. inversion N; subst.
    destruct I as [E|I]; [injection E as -> ->; now rewrite str_eqb_refl|]. destruct (str_eqb m n) eqn:Q; [|auto].
    apply str_eqb_eq in Q. subst. exfalso. apply H1. apply (in_map fst) in I. exact I.
  - intros (n & t & H & <-). eapply get_type_full; eauto.
Qed.

Definition good_all (all : list tkey) : Prop := incl [KNil; KBool; KNum; KStr] all.
Lemma literal_types_all : forall ts, has_literal_types ts -> good_all (full ts).
Proof.
  intros ts H k I. assert (exists t, In t [TNil; TBool; TNum; TStr] /\ key_of t = k) as (t & It & <-).
  { destruct I as [<-|[<-|[<-|[<-|[]]]]]; [exists TNil|exists TBool|exists TNum|exists TStr]; cbn; auto 6. }
  destruct (H t It) as (n & E). eapply get_type_full; eauto.
Qed.
Lemma good_all_length : forall all, good_all all -> 1 < length all.
Proof.
  intros all H. assert (L : length [KNil; KBool; KNum; KStr] <= length all); [|cbn in L; lia]. apply NoDup_incl_length; [|exact H].
  repeat constructor; cbn; intuition discriminate.
Qed.

(** ** The stages *)
Notation at_ := (@TyGraph.kn_at tkey).
Definition same_shape (tg tg' : tg_t) : Prop :=
  TyGraph.edges tg' = TyGraph.edges tg /\ TyGraph.anon_tys tg' = TyGraph.anon_tys tg /\ length (TyGraph.nodes tg') = length (TyGraph.nodes tg).
Lemma shape_refl : forall tg, same_shape tg tg. Proof. repeat split. Qed.
Lemma shape_trans : forall a b c, same_shape a b -> same_shape b c -> same_shape a c.
Proof. intros a b c (A1 & A2 & A3) (B1 & B2 & B3). repeat split; congruence. Qed.
Lemma put_shape : forall tg p k, same_shape tg (TyGraph.put tg p k).
Proof. intros. repeat split. cbn. apply TyGraphProofs.upd_length. Qed.
Lemma put_at : forall tg p k q, fst p < length (TyGraph.nodes tg) -> at_ (TyGraph.put tg p k) q = if TyGraphProofs.slot_eq_dec p q then Some k else at_ tg q.
Proof.
  intros tg p k q L. destruct (TyGraphProofs.slot_eq_dec p q) as [<-|NE]; [|now apply TyGraphProofs.kn_at_put_other].
  apply TyGraphProofs.kn_at_put_same. now apply TyGraphProofs.kn_at_bound.
Qed.
Lemma put_at_same : forall tg p k, fst p < length (TyGraph.nodes tg) -> at_ (TyGraph.put tg p k) p = Some k.
Proof. intros tg p k L. rewrite put_at by exact L. now destruct (TyGraphProofs.slot_eq_dec p p). Qed.

Lemma build_at : forall g all n x s, node g n = Some x -> at_ (build g all) (n, s) = Some (TyGraph.Inferred all).
Proof. intros g all n x s N. unfold TyGraph.kn_at, build. cbn [fst snd TyGraph.nodes]. rewrite nth_error_map. unfold node in N. rewrite N. now destruct s. Qed.

Lemma ast_ty_literal : forall x, ast_ty x = literal x.
Proof. destruct x as [| | | | | |[]| |]; reflexivity. Qed.
Lemma literal_in : forall all x t, good_all all -> literal x = Some t -> In t all.
Proof. intros all x t G L. apply G. destruct x as [| | | | | |[]| |]; cbn in L; try discriminate; injection L as <-; cbn; auto 6. Qed.

Definition with_literal (x : anode) (s : TyGraph.side) (k : TyGraph.kn tkey) : TyGraph.kn tkey :=
  match literal x, s with Some t, TyGraph.Out_ => TyGraph.Known t | Some _, TyGraph.In_ => TyGraph.Any | None, _ => k end.
Lemma literals_ok : forall all, good_all all -> forall xs i tg, i + length xs <= length (TyGraph.nodes tg) ->
  (forall n, i <= n < i + length xs -> forall s, at_ tg (n, s) = Some (TyGraph.Inferred all)) ->
  exists tg', apply_literals xs i tg = Ok tg' /\ same_shape tg tg' /\
  (forall n s, n < i -> at_ tg' (n, s) = at_ tg (n, s)) /\
  forall j x s, nth_error xs j = Some x -> at_ tg' (i + j, s) = Some (with_literal x s (TyGraph.Inferred all)).
Proof.
  intros all G. induction xs as [|x xs IH]; intros i tg L H; cbn [apply_literals length] in *.
  - exists tg. split; [reflexivity|]. split; [apply shape_refl|]. split; [auto|]. intros [|j] x s E; discriminate.
  - rewrite ast_ty_literal. destruct (literal x) as [t|] eqn:E.
    + rewrite (H i) by lia. rewrite (proj2 (mem_in t all) (literal_in all x t G E)).
      set (tg1 := TyGraph.put tg (i, TyGraph.In_) TyGraph.Any). set (tg2 := TyGraph.put tg1 (i, TyGraph.Out_) (TyGraph.Known t)).
      assert (S1 : same_shape tg tg1) by apply put_shape. assert (S2 : same_shape tg1 tg2) by apply put_shape.
      assert (L1 : length (TyGraph.nodes tg1) = length (TyGraph.nodes tg)) by apply S1. assert (L2 : length (TyGraph.nodes tg2) = length (TyGraph.nodes tg1)) by apply S2.
      assert (O : forall n s, n <> i -> at_ tg2 (n, s) = at_ tg (n, s)).
      { intros n s NE. unfold tg2, tg1. rewrite !TyGraphProofs.kn_at_put_other by congruence. reflexivity. }
      assert (I1 : at_ tg2 (i, TyGraph.In_) = Some TyGraph.Any).
      { unfold tg2. rewrite TyGraphProofs.kn_at_put_other by discriminate. apply put_at_same. cbn [fst]. lia. }
      assert (I2 : at_ tg2 (i, TyGraph.Out_) = Some (TyGraph.Known t)) by (apply put_at_same; cbn [fst]; lia).
      destruct (IH (S i) tg2) as (tg' & A & B & C & D); [lia|intros n Ln s; rewrite O by lia; apply H; lia|].
      exists tg'. split; [exact A|]. split; [eapply shape_trans; [exact S1|eapply shape_trans; eauto]|]. split.
      * intros n s Ln. rewrite C by lia. apply O. lia.
      * intros [|j] y s Ey; [|rewrite <- (D j y s Ey); f_equal; f_equal; lia]. injection Ey as <-. rewrite Nat.add_0_r, C by lia.
        unfold with_literal. rewrite E. destruct s; auto.
    + destruct (IH (S i) tg) as (tg' & A & B & C & D); [lia|intros n Ln s; apply H; lia|].
      exists tg'. split; [exact A|]. split; [exact B|]. split; [intros n s Ln; apply C; lia|].
      intros [|j] y s Ey; [|rewrite <- (D j y s Ey); f_equal; f_equal; lia]. injection Ey as <-. rewrite Nat.add_0_r, C by lia.
      unfold with_literal. rewrite E. apply H. lia.
Qed.

Lemma keys_ok : forall es tg, let r := apply_keys es tg in same_shape tg r /\ (forall n, at_ r (n, TyGraph.Out_) = at_ tg (n, TyGraph.Out_)) /\
  forall n, n < length (TyGraph.nodes tg) ->
  (exists a t, In (Edge a n (RKeyed (Some t))) es /\ at_ r (n, TyGraph.In_) = Some (TyGraph.Known (key_of t))) \/
  ((forall a t, ~ In (Edge a n (RKeyed (Some t))) es) /\ at_ r (n, TyGraph.In_) = at_ tg (n, TyGraph.In_)).
Proof.
  intros es. induction es as [|e es IH] using rev_ind; intros tg.
  - cbn. split; [apply shape_refl|]. split; [auto|]. intros n _. right. split; auto.
  - unfold apply_keys. rewrite fold_left_app. cbn [fold_left]. change (fold_left _ es tg) with (apply_keys es tg). destruct (IH tg) as (A & B & C). clear IH.
    set (r := apply_keys es tg) in *. destruct e as [a b rel]. cbn [e_rel e_dst].
    assert (U : (forall t, rel <> RKeyed (Some t)) -> forall n, n < length (TyGraph.nodes tg) ->
      (exists a0 t, In (Edge a0 n (RKeyed (Some t))) (es ++ [Edge a b rel]) /\ at_ r (n, TyGraph.In_) = Some (TyGraph.Known (key_of t))) \/
      ((forall a0 t, ~ In (Edge a0 n (RKeyed (Some t))) (es ++ [Edge a b rel])) /\ at_ r (n, TyGraph.In_) = at_ tg (n, TyGraph.In_))).
    { intros NR n L. destruct (C n L) as [(a0 & t & I & E)|(NI & E)]; [left; exists a0, t; split; [apply in_or_app; auto|auto]|].
      right. split; [|auto]. intros a0 t I. apply in_app_or in I. destruct I as [I|[I|[]]]; [eapply NI; eauto|]. injection I as _ _ ->. eapply NR; eauto. }
    destruct rel as [|[t|]|i]; try (split; [exact A|split; [exact B|apply U; discriminate]]).
    split; [eapply shape_trans; [exact A|apply put_shape]|]. split; [intros n; rewrite TyGraphProofs.kn_at_put_other by discriminate; apply B|].
    intros n L. assert (Lr : length (TyGraph.nodes r) = length (TyGraph.nodes tg)) by apply A. destruct (Nat.eq_dec b n) as [->|NE].
    + left. exists a, t. split; [apply in_or_app; right; now left|]. apply put_at_same. cbn [fst]. lia.
    + rewrite TyGraphProofs.kn_at_put_other by congruence. destruct (C n L) as [(a0 & t0 & I & E)|(NI & E)]; [left; exists a0, t0; split; [apply in_or_app; auto|auto]|].
      right. split; [|auto]. intros a0 t0 I. apply in_app_or in I. destruct I as [I|[I|[]]]; [eapply NI; eauto|]. injection I as _ E2 _. auto.
Qed.

Section G.
Variables (m : impls) (g : graph).
Hypothesis M : made m g.

Definition keys_at (o : nat) (ks : option (list tkey)) : Prop :=
  match ks with None => In None (map fst (keyed g o)) | Some l => ~ In None (map fst (keyed g o)) /\ listed g o l end.
Lemma op_keys_ok : forall o, exists ks, op_keys g o = Ok ks /\ keys_at o ks.
Proof.
  intros o. unfold op_keys. rewrite cmds_eq.
  assert (R : rmapM (find_edge g o) (rev (map snd (keyed g o))) = Ok (rev (map (fun p => Edge o (snd p) (RKeyed (fst p))) (keyed g o)))).
  { rewrite <- !map_rev. assert (Q : forall p, In p (rev (keyed g o)) -> find_edge g o (snd p) = Ok (Edge o (snd p) (RKeyed (fst p)))).
    { intros [k c] I. apply in_rev in I. destruct (keyed_cmd m g M o k c I) as (_ & x & N & Cx). destruct (cmd_parent_ok m g M c x N Cx) as (o' & t & k' & _ & _ & _ & FE & U).
      destruct (U _ _ I) as (-> & ->). exact FE. }
    induction (rev (keyed g o)) as [|p l IH]; [reflexivity|]. cbn [map rmapM]. rewrite (Q p (or_introl eq_refl)). cbn [rbind]. rewrite IH; [reflexivity|]. intros; apply Q; now right. }
  rewrite R. cbn [rbind]. eexists. split; [reflexivity|]. rewrite <- map_rev.
  assert (Z : forall l acc, let r := fold_left (fun set e => match set, e_rel e with Some l, RKeyed (Some t) => Some (snd (TyGraph.ts_insert tkey_eqb (key_of t) l)) | _, _ => None end)
     (map (fun p : option ty * nat => Edge o (snd p) (RKeyed (fst p))) l) acc in
     match r with
     | None => acc = None \/ In None (map fst l)
     | Some x => ~ In None (map fst l) /\ exists y, acc = Some y /\ (NoDup y -> NoDup x) /\ forall k, In k x <-> In k y \/ exists t c, In (Some t, c) l /\ key_of t = k
     end).
  { induction l as [|[k c] l IH]; intros acc; cbn [map fold_left].
    - destruct acc as [y|]; [|auto]. split; [intros []|]. exists y. split; [auto|]. split; [auto|]. intros k. split; [auto|intros [H|(t & c & [] & _)]; auto].
    - cbn [e_rel fst snd] in *. match goal with |- context [fold_left _ _ ?a] => specialize (IH a); destruct (fold_left _ _ a) as [x|] end.
      + destruct IH as (NI & y & E & ND & Hx). destruct acc as [z|]; [|discriminate]. destruct k as [t|]; [|discriminate]. injection E as <-.
        split; [intros [H|H]; [discriminate|auto]|]. exists z. split; [auto|]. split; [intros Nz; apply ND; now apply insert_nodup|].
        intros k. rewrite Hx, insert_in. split.
        * intros [[->|H]|(t' & c' & I & E)]; [right; exists t, c; split; [now left|auto]|auto|right; exists t', c'; split; [now right|auto]].
        * intros [H|(t' & c' & [I|I] & E)]; [auto|injection I as -> ->; auto|right; eauto].
      + destruct IH as [E|I]; [|right; now right]. destruct acc as [z|]; [|auto]. destruct k as [t|]; [discriminate|]. right. now left. }
  specialize (Z (rev (keyed g o)) (Some [])). cbv zeta in Z.
  match goal with |- keys_at o ?r => destruct r as [x|] end.
  - destruct Z as (NI & y & E & ND & Hx). injection E as <-. split.
    + intros I. apply NI. rewrite map_rev. apply in_rev. now rewrite rev_involutive.
    + split; [apply ND; constructor|]. intros k. rewrite Hx. split.
      * intros [[]|(t & c & I & E)]. apply in_rev in I. eauto.
      * intros (t & c & I & E). right. exists t, c. split; [now apply in_rev in I|auto].
  - destruct Z as [E|I]; [discriminate|]. cbn [keys_at]. rewrite map_rev in I. now apply in_rev in I.
Qed.

Lemma reduce_ok : forall all, 1 < length all -> forall ops tg, NoDup ops -> (forall o, In o ops -> at_ tg (o, TyGraph.In_) = Some (TyGraph.Inferred all)) ->
  exists tg', reduce g tg ops = Ok tg' /\ same_shape tg tg' /\
  (forall p, (forall o, In o ops -> p <> (o, TyGraph.In_)) -> at_ tg' p = at_ tg p) /\
  forall o, In o ops -> exists ks, keys_at o ks /\ at_ tg' (o, TyGraph.In_) = Some (TyGraph.Inferred (match ks with Some l => l | None => all end)).
Proof.
  intros all LA. induction ops as [|o ops IH]; intros tg ND H; cbn [reduce].
  - exists tg. split; [reflexivity|]. split; [apply shape_refl|]. split; [auto|intros o []].
  - destruct (op_keys_ok o) as (ks & E & K). rewrite E. cbn [rbind]. inversion ND as [|? ? NI ND']; subst.
    set (tg1 := TyGraph.reduce_op tg o ks). assert (B := H o (or_introl eq_refl)).
    assert (Lo : o < length (TyGraph.nodes tg)) by (apply (TyGraphProofs.kn_at_bound tkey tg (o, TyGraph.In_)); congruence).
    assert (R : tg1 = match ks with Some l => TyGraph.put tg (o, TyGraph.In_) (TyGraph.Inferred l) | None => tg end).
    { unfold tg1, TyGraph.reduce_op. rewrite B. destruct ks; [|reflexivity]. cbn [TyGraph.is_multiple]. now rewrite (proj2 (Nat.ltb_lt 1 (length all)) LA). }
    assert (S1 : same_shape tg tg1) by (rewrite R; destruct ks; [apply put_shape|apply shape_refl]).
    assert (O : forall p, p <> (o, TyGraph.In_) -> at_ tg1 p = at_ tg p) by (intros p NE; rewrite R; destruct ks; [apply TyGraphProofs.kn_at_put_other; congruence|reflexivity]).
    assert (V : at_ tg1 (o, TyGraph.In_) = Some (TyGraph.Inferred (match ks with Some l => l | None => all end))) by (rewrite R; destruct ks; [now apply put_at_same|exact B]).
    destruct (IH tg1 ND') as (tg' & A1 & A2 & A3 & A4).
    { intros o' I. rewrite O; [apply H; now right|]. intros Q. injection Q as ->. auto. }
    exists tg'. split; [exact A1|]. split; [eapply shape_trans; eauto|]. split.
    + intros p NP. rewrite A3; [apply O; apply NP; now left|]. intros o' I. apply NP. now right.
    + intros o' [<-|I]; [|auto]. exists ks. split; [auto|]. rewrite A3; [exact V|]. intros o' I Q. injection Q as ->. auto.
Qed.

Theorem init_tg_ok : forall all root, good_all all -> exists tg, init_tg g all root = Ok tg /\
  length (TyGraph.nodes tg) = length (g_nodes g) /\ TyGraph.anon_tys tg = [] /\
  (forall a b f, has tg a b f <-> carries g a b f) /\
  forall n x, node g n = Some x -> exists i o, at_ tg (n, TyGraph.In_) = Some i /\ at_ tg (n, TyGraph.Out_) = Some o /\
    start_input g all root n x i /\ start_output all x o.
Proof.
  intros all root G. unfold init_tg, apply_ast_types. assert (LB : length (TyGraph.nodes (build g all)) = length (g_nodes g)) by (cbn; apply map_length).
  destruct (literals_ok all G (g_nodes g) 0 (build g all)) as (t1 & E1 & S1 & _ & A1).
  { rewrite LB. cbn. lia. }
  { intros n L s. destruct (node g n) as [x|] eqn:N; [eapply build_at; eauto|]. apply nth_error_None in N. lia. }
  rewrite E1. cbn [rbind]. destruct (keys_ok (g_edges g) t1) as (S2 & A2o & A2i). set (t2 := apply_keys (g_edges g) t1) in *.
  assert (S12 := shape_trans _ _ _ S1 S2). destruct (apply_edges_ok m g M t2) as (t3 & E3 & N3 & An3 & H3).
  { destruct S12 as (-> & _). reflexivity. }
  rewrite E3. cbn [rbind]. assert (LL := good_all_length all G).
  assert (At3 : forall p, at_ t3 p = at_ t2 p) by (intros p; unfold TyGraph.kn_at; now rewrite N3).
  assert (Nn : forall n x, node g n = Some x -> n < length (TyGraph.nodes t1)).
  { intros n x N. destruct S1 as (_ & _ & ->). rewrite LB. apply (node_lt g n x N). }
  assert (KD : forall a n t, In (Edge a n (RKeyed (Some t))) (g_edges g) -> In (Some t, n) (keyed g a)) by (intros a n t; apply keyed_in).
  assert (Plain : forall n x, node g n = Some x -> ~ cmdlike x -> at_ t2 (n, TyGraph.In_) = at_ t1 (n, TyGraph.In_)).
  { intros n x N NC. destruct (A2i n (Nn n x N)) as [(a & t & I & _)|(_ & E)]; [|exact E]. exfalso. apply KD in I.
    destruct (keyed_cmd m g M a _ n I) as (_ & x' & N' & C'). rewrite N in N'. injection N' as <-. auto. }
  assert (A1' : forall n x s, node g n = Some x -> at_ t1 (n, s) = Some (with_literal x s (TyGraph.Inferred all))) by (intros n x s N; exact (A1 n x s N)).
  destruct (reduce_ok all LL (indices g is_op) t3) as (t4 & E4 & S4 & O4 & A4).
  { apply NoDup_filter. apply seq_NoDup. }
  { intros o I. apply in_indices in I. destruct I as (x & N & X). apply is_op_true in X. destruct X as (t & ->). rewrite At3, (Plain o _ N) by (cbn; auto).
    rewrite (A1' _ _ _ N). reflexivity. }
  rewrite E4. cbn [rbind]. eexists. split; [reflexivity|]. destruct S4 as (Ed4 & An4 & L4).
  assert (Len4 : length (TyGraph.nodes t4) = length (g_nodes g)) by (rewrite L4, N3; destruct S12 as (_ & _ & ->); exact LB).
  destruct (m_root _ _ M) as (tr & Nr). assert (L0 : 0 < length (TyGraph.nodes t4)) by (rewrite Len4; apply (node_lt g 0 _ Nr)).
  split; [|split; [|split]].
  - destruct (put_shape t4 (0, TyGraph.In_) (TyGraph.Known root)) as (_ & _ & ->). exact Len4.
  - cbn. rewrite An4, An3. destruct S12 as (_ & -> & _). reflexivity.
  - intros a b f. rewrite <- H3. unfold has. cbn [TyGraph.edges TyGraph.put]. now rewrite Ed4.
  - intros n x N.
    assert (Out : at_ (TyGraph.put t4 (0, TyGraph.In_) (TyGraph.Known root)) (n, TyGraph.Out_) = Some (with_literal x TyGraph.Out_ (TyGraph.Inferred all))).
    { rewrite TyGraphProofs.kn_at_put_other by discriminate. rewrite O4 by (intros; discriminate). rewrite At3, A2o. auto. }
    assert (SO : start_output all x (with_literal x TyGraph.Out_ (TyGraph.Inferred all))) by (unfold start_output, with_literal; now destruct (literal x)).
    assert (InN : n <> 0 -> at_ (TyGraph.put t4 (0, TyGraph.In_) (TyGraph.Known root)) (n, TyGraph.In_) = at_ t4 (n, TyGraph.In_)) by (intros NZ; apply TyGraphProofs.kn_at_put_other; congruence).
    assert (In4 : (forall t, x <> NOp t) -> at_ t4 (n, TyGraph.In_) = at_ t2 (n, TyGraph.In_)).
    { intros NO. rewrite O4; [apply At3|]. intros o I Q. injection Q as ->. apply in_indices in I. destruct I as (x' & N' & X). rewrite N in N'. injection N' as <-.
      apply is_op_true in X. destruct X as (t & ->). eapply NO; eauto. }
    assert (NZ : (forall t, x <> NExpr t) -> n <> 0) by (intros NX ->; rewrite Nr in N; injection N as <-; eapply NX; eauto).
    assert (Lit : ~ cmdlike x -> (forall t, x <> NOp t) -> (forall t, x <> NExpr t) ->
      at_ (TyGraph.put t4 (0, TyGraph.In_) (TyGraph.Known root)) (n, TyGraph.In_) = Some (with_literal x TyGraph.In_ (TyGraph.Inferred all))).
    { intros NC NO NX. rewrite InN by auto. rewrite In4 by exact NO. rewrite (Plain n x N NC). auto. }
    assert (Cmd : cmdlike x -> exists o k, In (k, n) (keyed g o) /\
      at_ (TyGraph.put t4 (0, TyGraph.In_) (TyGraph.Known root)) (n, TyGraph.In_) = Some (match k with Some t => TyGraph.Known (key_of t) | None => TyGraph.Inferred all end)).
    { intros C. destruct (cmd_parent_ok m g M n x N C) as (o & t & k & No & _ & K & _ & U). exists o, k. split; [exact K|].
      rewrite InN by (apply NZ; intros t' ->; exact C). rewrite In4 by (intros t' ->; exact C).
      destruct (A2i n (Nn n x N)) as [(a & t' & I & E)|(NI & E)].
      - apply KD in I. destruct (U _ _ I) as (_ & <-). exact E.
      - destruct k as [t'|]; [exfalso; eapply NI; apply keyed_in; exact K|]. rewrite E, (A1' _ _ _ N). unfold with_literal. destruct x; try contradiction; reflexivity. }
    destruct x; try (eexists; eexists; split; [apply Lit; [intros []|intros; discriminate|intros; discriminate]|]; split; [exact Out|]; split; [|exact SO];
      unfold start_input, with_literal; match goal with |- context [literal ?x] => destruct (literal x) end; reflexivity).
    all: try (destruct (Cmd I) as (o & k & K & E); eexists; eexists; split; [exact E|]; split; [exact Out|]; split; [|exact SO]; exists o, k; split; [exact K|reflexivity]).
    all: idtac.
    all: try (destruct (A4 n) as (ks & K & E); [apply in_indices; eauto|]; rewrite <- InN in E by (apply NZ; intros; discriminate); eexists; eexists; split; [exact E|]; split; [exact Out|]; split; [|exact SO];
      destruct ks as [l|]; [right; destruct K; split; eauto|left; auto]).
    all: try (exists (if n =? 0 then TyGraph.Known root else TyGraph.Inferred all); eexists; split; [|split; [exact Out|split; [reflexivity|exact SO]]];
      destruct (Nat.eqb_spec n 0) as [->|Z]; [now apply put_at_same|]; rewrite InN by exact Z; rewrite In4 by (intros; discriminate);
      rewrite (Plain n _ N) by (intros []); rewrite (A1' _ _ _ N); reflexivity).
Qed.
End G.

(** Types built into ogma stay. *)
Lemma literal_types_stay : forall s c r s', wf s -> (forall t, In t [TNil; TBool; TNum; TStr] -> exists n, alookup str_eqb n (df_types s) = Some (TyBase t)) ->
  process false s c = (r, s') -> forall t, In t [TNil; TBool; TNum; TStr] -> exists n, alookup str_eqb n (df_types s') = Some (TyBase t).
Proof.
  intros s c r s' W H P t I. destruct (H t I) as (n & E). exists n. destruct c as [d|p|f]; cbn [process] in P.
  - unfold process_impl in P. destruct (assert_all_ops_defined _ d); try (injection P as <- <-; auto).
    destruct (match d_in d with Some n => _ | None => _ end); try (injection P as <- <-; auto).
    destruct (insert_impl _ _ _); injection P as <- <-; auto.
  - unfold process_ty in P. destruct (insert_type (df_types s) p) as [[ts d]| |] eqn:Q; try (injection P as <- <-; auto).
    destruct (insert_type_spec _ _ _ _ Q) as (N & C & ->).
    assert (A : alookup str_eqb n (ainsert str_eqb (pt_name p) (TyUser (pt_loc p) d) (df_types s)) = Some (TyBase t)).
    { rewrite (alookup_ainsert _ _ str_eqb str_eqb_sym str_eqb_trans). destruct (str_eqb (pt_name p) n) eqn:Z; [|exact E]. apply str_eqb_eq in Z. subst.
      unfold contains_type in C. rewrite E in C. discriminate. }
    destruct (add_inits _ _ _ _); injection P as <- <-; exact A.
  - injection P as <- <-. cbn [df_types]. rewrite types_clear_lookup by (apply uniq_nodup; apply W). now rewrite E.
Qed.
Lemma literal_types_run : forall cs s, wf s -> (forall t, In t [TNil; TBool; TNum; TStr] -> exists n, alookup str_eqb n (df_types s) = Some (TyBase t)) ->
  has_literal_types (df_types (snd (run false s cs))).
Proof.
  induction cs as [|c cs IH]; intros s W H; cbn [run].
  - cbn [snd]. intros t I. destruct (H t I) as (n & E). exists n. unfold get_type. now rewrite E.
  - destruct (process false s c) as [r s'] eqn:P. destruct (run false s' cs) as [rs s''] eqn:R. cbn [snd].
    specialize (IH s'). rewrite R in IH. apply IH; [eapply wf_process; eauto|eapply literal_types_stay; eauto].
Qed.
