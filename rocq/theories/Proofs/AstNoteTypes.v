(** The types written are in force in the type graph, or refused. *)
From Coq Require Import String List ZArith NArith Bool Arith Lia.
From Verif Require Import Model.Base Model.Value Model.Ast Model.Registry Model.AstGraph Model.TyBuild Spec.AstGraphSpec Spec.RegistrySpec Spec.TyBuildSpec Spec.AstNoteSpec
  Proofs.RegistryProofs Proofs.AstFlatProofs Proofs.AstExpandProofs Proofs.AstGraphProofs Proofs.AstTypedProofs Proofs.TyBuildBase Proofs.TyBuildNodes Proofs.TyBuildProofs Proofs.AstNoteProofs.
From Verif Require Model.TyGraph Spec.TyGraphSpec Proofs.TyGraphProofs.
Import ListNotations.

(** ** Where changes are *)
Definition spot (c : chg) : TyGraph.slot := match c with ObligeInput n _ => (n, TyGraph.In_) | ObligeOutput n _ => (n, TyGraph.Out_) end.
Definition what (c : chg) : ty := match c with ObligeInput _ t | ObligeOutput _ t => t end.

Lemma Forall2_in_l : forall A B (R : A -> B -> Prop) l m x, Forall2 R l m -> In x l -> exists y, In y m /\ R x y.
Proof. intros A B R l m x F. induction F; intros I; [destruct I|]. destruct I as [->|I]; [eexists; split; [now left|auto]|]. destruct (IHF I) as (z & ? & ?). exists z. split; [now right|auto]. Qed.
Lemma Forall2_nth_both : forall A B (R : A -> B -> Prop) l m, Forall2 R l m -> forall i x y, nth_error l i = Some x -> nth_error m i = Some y -> R x y.
Proof. intros A B R l m F. induction F; intros [|i] a b E1 E2; cbn in *; try discriminate; [congruence|eauto]. Qed.
Lemma in_children : forall g a b, In (Edge a b RNormal) (g_edges g) -> In b (children g a).
Proof. intros g a b I. unfold children. apply in_map_iff. exists (Edge a b RNormal). split; [auto|]. apply filter_In. split; [auto|]. cbn. now rewrite Nat.eqb_refl. Qed.

Section I.
Variables (s : defs) (e : expr) (g : graph) (cs : list chg).
Hypothesis H : init s e = Ok (g, cs).
Notation ts := (df_types s).

(** What is known of the types written at a node. *)
Definition at_kind (n : nat) : Prop :=
  match node g n with
  | Some (NExpr _) => exists e', noted ts g cs n e'
  | Some (NOp _) => exists b, noted_block ts g cs n b
  | _ => forall c, In c cs -> chg_at c <> n
  end.
Lemma all_noted : forall n, n < sz g -> at_kind n.
Proof.
  destruct (init_notes _ _ _ _ H) as (NO & HC & HK). pose proof (init_made _ _ _ _ H) as M.
  induction n as [n IH] using lt_wf_ind. intros L. destruct n as [|n].
  { unfold at_kind. inversion NO as [n0 e0 N0]; subst. rewrite N0. eauto. }
  destruct (parent_edges (df_impls s) g M (S n) ltac:(lia)) as ([a b r] & Ie & Ed & NT & _). cbn [e_dst e_rel] in *. subst b.
  pose proof (i_ord g (m_inv _ _ M) _ Ie) as O. cbn in O.
  destruct (edge_node (df_impls s) g M _ Ie) as (x & y & Nx & Ny & K). cbn [e_src e_dst e_rel] in *.
  pose proof (IH a ltac:(lia) ltac:(lia)) as Pa. unfold at_kind in *. rewrite Nx in Pa. rewrite Ny.
  destruct r as [|k|i]; [|pose proof (proj2 (keyed_in g a k (S n)) Ie) as X|destruct (NT i); reflexivity].
  - assert (Ic : In (S n) (children g a)) by now apply in_children.
    destruct x; cbn [kinds] in K; try contradiction.
    + destruct Pa as (b & Q). inversion Q as [n0 b0 t0 _ _ _ _ F]; subst. destruct (Forall2_in_l _ _ _ _ _ _ F Ic) as (t' & _ & Ht).
      inversion Ht as [n1 e1 Z|n1 t1 Z1 Z2 Z3]; subst.
      * inversion Z as [n2 e2 N2]; subst. rewrite Ny in N2. injection N2 as ->. eauto.
      * destruct y as [| | | | | | | |]; auto; [destruct K|edestruct Z2; eauto].
    + destruct (cmd_parent_ok (df_impls s) g M a _ Nx I) as (o & t0 & k & _ & _ & Ko & _). destruct (HK _ _ _ Ko) as (t1 & i & ks & _ & _ & _ & SI & NI & _).
      destruct i as [l f|d]; cbn [shows_impl] in SI; [destruct SI as (t2 & SI); congruence|]. destruct NI as (x & Cx & NX). rewrite Cx in Ic.
      destruct Ic as [->|[]]. inversion NX as [n2 e2 N2]; subst. rewrite Ny in N2. injection N2 as ->. eauto.
    + destruct y; try contradiction. destruct Pa as (e' & Q). inversion Q as [n0 e0 _ _ _ F]; subst. destruct (Forall2_in_l _ _ _ _ _ _ F Ic) as (b & _ & Hb). eauto.
  - destruct (HK _ _ _ X) as (t & i & ks & _ & _ & _ & _ & _ & Q). destruct x; cbn [kinds] in K; try contradiction. destruct y; auto; destruct K.
Qed.

Lemma at_node_lt : forall c, In c cs -> chg_at c < sz g.
Proof. destruct (init_notes _ _ _ _ H) as (_ & HC & _). exact HC. Qed.

Lemma asks_get : forall a ob t, asks ts a ob cs -> In (ob t) cs -> exists x, get_type ts x = Some t /\ forall t', In (ob t') cs -> t' = t.
Proof.
  intros [x|] ob t A I; cbn in A; [|now apply A in I]. destruct A as (t0 & E & A). apply A in I. subst t0. exists (tg_str x). split; [auto|]. intros t'. apply A.
Qed.
Lemma change_type : forall c, In c cs -> (exists x, get_type ts x = Some (what c)) /\ (forall c', In c' cs -> spot c' = spot c -> what c' = what c) /\
  match c with ObligeInput n _ => exists t, node g n = Some (NOp t) | ObligeOutput n _ => exists t, node g n = Some (NOp t) \/ node g n = Some (NExpr t) end.
Proof.
  intros c Ic. pose proof (all_noted _ (at_node_lt _ Ic)) as P. unfold at_kind in P. destruct (node g (chg_at c)) as [x|] eqn:N.
  2: { apply nth_error_None in N. pose proof (at_node_lt _ Ic). lia. }
  assert (CC : (exists t, x = NOp t) \/ (exists t, x = NExpr t)) by (destruct x; eauto; exfalso; apply (P c Ic); reflexivity).
  destruct CC as [(t & ->)|(t & ->)].
  - destruct P as (b & Q). inversion Q as [n0 b0 t0 _ _ Qi Qo _]; subst. destruct c as [n u|n u]; cbn [chg_at what spot] in *.
    + destruct (asks_get _ _ _ Qi Ic) as (y & E & U). split; [eauto|]. split; [|eauto]. intros [n' u'|n' u'] I' S'; cbn in S'; [|discriminate]. injection S' as ->. auto.
    + destruct (asks_get _ _ _ Qo Ic) as (y & E & U). split; [eauto|]. split; [|eauto]. intros [n' u'|n' u'] I' S'; cbn in S'; [discriminate|]. injection S' as ->. auto.
  - destruct P as (e' & Q). inversion Q as [n0 e0 _ Qi Qo _]; subst. destruct c as [n u|n u]; cbn [chg_at what spot] in *; [now apply Qi in Ic|].
    destruct (asks_get _ _ _ Qo Ic) as (y & E & U). split; [eauto|]. split; [|eauto]. intros [n' u'|n' u'] I' S'; cbn in S'; [discriminate|]. injection S' as ->. auto.
Qed.

Section T.
Variables (root : tkey) (tg : tg_t).
Hypothesis L : has_literal_types ts.
Hypothesis E : init_tg g (full ts) root = Ok tg.
Lemma start_spot : forall c, In c cs -> exists ks, TyGraph.kn_at tg (spot c) = Some (TyGraph.Inferred ks) /\
  (In (key_of (what c)) ks <-> match c with ObligeInput n t => takes g n t | ObligeOutput _ _ => True end).
Proof.
  intros c Ic. destruct (built _ _ _ _ root H L) as (tg' & E' & _ & _ & _ & B). rewrite E in E'. injection E' as <-.
  destruct (change_type c Ic) as ((x & G) & _ & K). pose proof (get_type_full _ _ _ G) as GF. destruct c as [n t|n t]; cbn [spot what] in *.
  - destruct K as (t0 & N). destruct (B _ _ N) as (i & o & Hi & _ & Si & _). cbn [start_input] in Si. destruct Si as [(J & ->)|(J & l & -> & _ & Hl)].
    + exists (full ts). split; [auto|]. split; [|auto]. intros _. apply in_map_iff in J. destruct J as ([k c] & J1 & J2). cbn in J1. subst k. exists None, c. auto.
    + exists l. split; [auto|]. rewrite Hl. split.
      * intros (t' & c & J1 & J2). exists (Some t'), c. auto.
      * intros ([t'|] & c & J1 & J2); [eauto|]. exfalso. apply J. apply in_map_iff. exists (None, c). auto.
  - destruct K as (t0 & [N|N]); destruct (B _ _ N) as (i & o & _ & Ho & _ & So); unfold start_output in So; cbn in So; subst o; exists (full ts); split; auto; tauto.
Qed.
End T.
End I.

(** ** Applying them *)
Definition functional (l : list chg) : Prop := forall c c', In c l -> In c' l -> spot c' = spot c -> what c' = what c.
Lemma functional_tl : forall c l, functional (c :: l) -> functional l.
Proof. intros c l F a b Ia Ib. apply F; now right. Qed.
Lemma to_chg_apply : forall tg c, TyGraph.apply_chg tkey_eqb tg (to_chg c) =
  TyGraph.at_slot tg (spot c) (fun k => TyGraph.set_kn tkey_eqb k (TyGraph.Obliged (key_of (what c)))).
Proof. intros tg [n t|n t]; reflexivity. Qed.

Lemma apply_one : forall tg c,
  (TyGraph.kn_at tg (spot c) = Some (TyGraph.Obliged (key_of (what c))) \/ exists ks, TyGraph.kn_at tg (spot c) = Some (TyGraph.Inferred ks) /\ In (key_of (what c)) ks) ->
  exists b, TyGraph.apply_chg tkey_eqb tg (to_chg c) = (TyGraph.put tg (spot c) (TyGraph.Obliged (key_of (what c))), Ok b).
Proof.
  intros tg c [K|(ks & K & I)]; rewrite to_chg_apply; unfold TyGraph.at_slot; rewrite K; unfold TyGraph.set_kn; cbn.
  - assert (tkey_eqb (key_of (what c)) (key_of (what c)) = true) as -> by now apply tkey_eqb_eq. eauto.
  - apply (TyGraphProofs.mem_in tkey tkey_eqb tkey_eqb_eq) in I. rewrite I. cbn. eauto.
Qed.
Lemma apply_bad : forall tg c ks, TyGraph.kn_at tg (spot c) = Some (TyGraph.Inferred ks) -> ~ In (key_of (what c)) ks ->
  TyGraph.apply_chg tkey_eqb tg (to_chg c) = (tg, Err 3).
Proof.
  intros tg c ks K I. rewrite to_chg_apply. unfold TyGraph.at_slot. rewrite K. unfold TyGraph.set_kn. cbn.
  apply (TyGraphProofs.mem_not tkey tkey_eqb tkey_eqb_eq) in I. rewrite I. reflexivity.
Qed.
Lemma spot_dec : forall c c' : chg, spot c = spot c' \/ spot c <> spot c'.
Proof. intros c c'. destruct (TyGraphProofs.slot_eq_dec (spot c) (spot c')); auto. Qed.
Lemma put_kn : forall tg c c', TyGraph.kn_at tg (spot c) <> None ->
  (spot c' = spot c -> what c' = what c) ->
  TyGraph.kn_at (TyGraph.put tg (spot c) (TyGraph.Obliged (key_of (what c)))) (spot c') = Some (TyGraph.Obliged (key_of (what c'))) \/
  spot c <> spot c' /\ TyGraph.kn_at (TyGraph.put tg (spot c) (TyGraph.Obliged (key_of (what c)))) (spot c') = TyGraph.kn_at tg (spot c').
Proof.
  intros tg c c' N F. destruct (spot_dec c c') as [Q|Q].
  - left. rewrite (F (eq_sym Q)), <- Q. now apply TyGraphProofs.kn_at_put_same.
  - right. split; [auto|]. now apply TyGraphProofs.kn_at_put_other.
Qed.

Lemma run_ok : forall l tg b, functional l ->
  (forall c, In c l -> TyGraph.kn_at tg (spot c) = Some (TyGraph.Obliged (key_of (what c))) \/ exists ks, TyGraph.kn_at tg (spot c) = Some (TyGraph.Inferred ks) /\ In (key_of (what c)) ks) ->
  exists tg' b', TyGraph.apply_chgs tkey_eqb tg (map to_chg l) b = (tg', Ok b').
Proof.
  induction l as [|c l IH]; intros tg b F A; cbn [map TyGraph.apply_chgs]; [eauto|].
  destruct (apply_one tg c (A c (or_introl eq_refl))) as (b1 & ->). apply IH; [eapply functional_tl; eauto|].
  intros c' I. destruct (put_kn tg c c') as [Q|(_ & Q)]; [|intros; apply F; cbn; auto|auto|rewrite Q; apply A; now right].
  destruct (A c (or_introl eq_refl)) as [X|(ks & X & _)]; congruence.
Qed.
Lemma run_bad : forall l tg b, functional l ->
  (forall c, In c l -> TyGraph.kn_at tg (spot c) = Some (TyGraph.Obliged (key_of (what c))) \/ exists ks, TyGraph.kn_at tg (spot c) = Some (TyGraph.Inferred ks)) ->
  (exists c ks, In c l /\ TyGraph.kn_at tg (spot c) = Some (TyGraph.Inferred ks) /\ ~ In (key_of (what c)) ks) ->
  exists tg', TyGraph.apply_chgs tkey_eqb tg (map to_chg l) b = (tg', Err 3).
Proof.
  induction l as [|c l IH]; intros tg b F A (c0 & ks0 & I0 & K0 & N0); [destruct I0|]. cbn [map TyGraph.apply_chgs].
  assert (D : (exists ks, TyGraph.kn_at tg (spot c) = Some (TyGraph.Inferred ks) /\ ~ In (key_of (what c)) ks) \/
    (TyGraph.kn_at tg (spot c) = Some (TyGraph.Obliged (key_of (what c))) \/ exists ks, TyGraph.kn_at tg (spot c) = Some (TyGraph.Inferred ks) /\ In (key_of (what c)) ks)).
  { destruct (A c (or_introl eq_refl)) as [X|(ks & X)]; [auto|]. destruct (TyGraph.mem tkey_eqb (key_of (what c)) ks) eqn:M.
    - apply (TyGraphProofs.mem_in tkey tkey_eqb tkey_eqb_eq) in M. eauto.
    - apply (TyGraphProofs.mem_not tkey tkey_eqb tkey_eqb_eq) in M. eauto. }
  destruct D as [(ks & X & NI)|D]; [rewrite (apply_bad _ _ _ X NI); eauto|].
  destruct (apply_one tg c D) as (b1 & ->).
  assert (KN : TyGraph.kn_at tg (spot c) <> None) by (destruct D as [X|(ks & X & _)]; congruence).
  apply IH; [eapply functional_tl; eauto| |].
  - intros c' I. destruct (put_kn tg c c') as [Q|(_ & Q)]; [auto|intros; apply F; cbn; auto|auto|rewrite Q; apply A; now right].
  - assert (J : In c0 l).
    { destruct I0 as [->|I0]; [|auto]. exfalso. destruct D as [X|(ks & X & I)]; [congruence|]. rewrite K0 in X. injection X as ->. auto. }
    exists c0, ks0. split; [auto|]. split; [|auto]. rewrite TyGraphProofs.kn_at_put_other; [auto|]. intros Q.
    assert (W : what c0 = what c) by (apply F; cbn; auto). rewrite Q, W in *. destruct D as [X|(ks & X & I)]; [congruence|]. rewrite K0 in X. injection X as ->. auto.
Qed.
Lemma run_app : forall l m tg b, TyGraph.apply_chgs tkey_eqb tg (l ++ m) b =
  match TyGraph.apply_chgs tkey_eqb tg l b with (tg', Ok b') => TyGraph.apply_chgs tkey_eqb tg' m b' | x => x end.
Proof.
  induction l as [|c l IH]; intros m tg b; cbn [app TyGraph.apply_chgs]; [destruct (TyGraph.apply_chgs tkey_eqb tg m b) as [? []]; auto|].
  destruct (TyGraph.apply_chg tkey_eqb tg c) as [tg' [b'| |]]; auto.
Qed.
Lemma run_anon : forall anon tg b, exists tg' b', TyGraph.apply_chgs tkey_eqb tg (map (@TyGraph.AnonTy tkey) anon) b = (tg', Ok b').
Proof. induction anon as [|t l IH]; intros tg b; cbn [map TyGraph.apply_chgs TyGraph.apply_chg]; [eauto|apply IH]. Qed.
Lemma run_settles : forall l tg b tg' b', (forall c, In c l -> TyGraph.kn_at tg (spot c) <> None) -> TyGraph.apply_chgs tkey_eqb tg (map to_chg l) b = (tg', Ok b') ->
  forall c, In c l -> TyGraphSpec.settled tg' (spot c) (key_of (what c)).
Proof.
  induction l as [|c l IH]; intros tg b tg' b' A R c0 I; [destruct I|]. cbn [map TyGraph.apply_chgs] in R.
  destruct (TyGraph.apply_chg tkey_eqb tg (to_chg c)) as [tg1 [b1| |]] eqn:E1; try discriminate.
  pose proof (TyGraphProofs.apply_chgs_keeps tkey tkey_eqb tkey_eqb_eq (map to_chg l) tg1 (b || b1)) as K. rewrite R in K. cbn [fst] in K.
  destruct I as [<-|I].
  - apply K. apply (TyGraphProofs.claim_accepted tkey tkey_eqb tkey_eqb_eq tg (to_chg c) (spot c) (key_of (what c)) tg1 b1); auto; [destruct c; reflexivity|]. apply A. now left.
  - apply (IH tg1 (b || b1) tg' b'); auto. intros c' I'. apply TyGraphProofs.kn_at_bound.
    pose proof (TyGraphProofs.apply_chgs_keeps tkey tkey_eqb tkey_eqb_eq [to_chg c] tg true) as K1. cbn [TyGraph.apply_chgs] in K1. rewrite E1 in K1. cbn [fst] in K1.
    destruct K1 as (KL & _). specialize (A c' (or_intror I')). apply TyGraphProofs.kn_at_bound in A. lia.
Qed.

(** ** Together *)
Lemma written_noted : forall ts g cs n e p x, noted ts g cs n e -> written_at g n e p x ->
  exists c t, In c cs /\ spot c = p /\ what c = t /\ get_type ts (tg_str x) = Some t.
Proof.
  intros ts g cs n e p x N W. induction W as [n e x E|n e i o b x C B E|n e i o b x C B E|n e i o b j a e' p x C B C' B' W IH]; inversion N as [n0 e0 Hn Hi Ho Hc]; subst.
  - rewrite E in Ho. destruct Ho as (t & Q & I). exists (ObligeOutput n t), t. repeat split; auto. now apply I.
  - destruct (Forall2_nth_both _ _ _ _ _ Hc _ _ _ C B) as [n1 b1 t1 _ _ Qi Qo _]. rewrite E in Qi. destruct Qi as (t & Q & I). exists (ObligeInput n1 t), t. repeat split; auto. now apply I.
  - destruct (Forall2_nth_both _ _ _ _ _ Hc _ _ _ C B) as [n1 b1 t1 _ _ Qi Qo _]. rewrite E in Qo. destruct Qo as (t & Q & I). exists (ObligeOutput n1 t), t. repeat split; auto. now apply I.
  - pose proof (Forall2_nth_both _ _ _ _ _ Hc _ _ _ C B) as Q. inversion Q as [n1 b1 t1 _ _ _ _ F]; subst.
    pose proof (Forall2_nth_both _ _ _ _ _ F _ _ _ C' B') as R. inversion R as [n2 e2 Z|n2 t2 Z _ _]; subst; [auto|]. exfalso. now apply (Z e').
Qed.

Theorem start_result : forall s e root anon g cs, init s e = Ok (g, cs) -> has_literal_types (df_types s) ->
  ((forall n t, In (ObligeInput n t) cs -> takes g n t) -> exists tg, start s e root anon = Ok (g, tg)) /\
  ((exists n t, In (ObligeInput n t) cs /\ ~ takes g n t) -> start s e root anon = Err 103).
Proof.
  intros s e root anon g cs H L. destruct (built _ _ _ _ root H L) as (tg & E & _). unfold start. rewrite H. cbn [rbind fst snd]. rewrite E. cbn [rbind].
  rewrite run_app. assert (F : functional cs) by (intros c c' Ic Ic'; now apply (change_type _ _ _ _ H c Ic)). pose proof (start_spot _ _ _ _ H root tg L E) as SP. split.
  - intros A. destruct (run_ok cs tg false F) as (tg' & b' & ->).
    + intros c Ic. right. destruct (SP c Ic) as (ks & K1 & K2). exists ks. split; [auto|]. apply K2. destruct c; auto.
    + destruct (run_anon anon tg' b') as (tg2 & b2 & ->). eauto.
  - intros (n & t & I & NT). destruct (run_bad cs tg false F) as (tg' & ->); [| |reflexivity].
    + intros c Ic. right. destruct (SP c Ic) as (ks & K1 & _). eauto.
    + destruct (SP _ I) as (ks & K1 & K2). exists (ObligeInput n t), ks. split; [auto|]. split; [auto|]. now rewrite K2.
Qed.

Theorem start_settles : forall s e root anon g tg, start s e root anon = Ok (g, tg) -> has_literal_types (df_types s) ->
  exists cs, init s e = Ok (g, cs) /\ forall c, In c cs -> TyGraphSpec.settled tg (spot c) (key_of (what c)).
Proof.
  intros s e root anon g tg R L. unfold start in R. destruct (init s e) as [[g0 cs]| |] eqn:H; cbn [rbind fst snd] in R; try discriminate.
  destruct (built _ _ _ _ root H L) as (tg0 & E & _). rewrite E in R. cbn [rbind] in R. rewrite run_app in R.
  destruct (TyGraph.apply_chgs tkey_eqb tg0 (map to_chg cs) false) as [tg1 [b1| |]] eqn:E1; try discriminate.
  destruct (run_anon anon tg1 b1) as (tg2 & b2 & E2). rewrite E2 in R. injection R as <- <-. exists cs. split; [auto|]. intros c Ic.
  pose proof (TyGraphProofs.apply_chgs_keeps tkey tkey_eqb tkey_eqb_eq (map (@TyGraph.AnonTy tkey) anon) tg1 b1) as K. rewrite E2 in K. cbn [fst] in K. apply K.
  apply (run_settles cs tg0 false tg1 b1); auto. intros c' Ic'. destruct (start_spot _ _ _ _ H root tg0 L E c' Ic') as (ks & Q & _). congruence.
Qed.

(** From the start on the sides written hold the type written. *)
Theorem held : forall s e root anon g tg xs, start s e root anon = Ok (g, tg) -> has_literal_types (df_types s) ->
  let tg' := fst (fst (TyGraph.compile_history tkey_eqb (tg, []) xs)) in
  let fixes n e := forall p x, written_at g n e p x -> exists t, get_type (df_types s) (tg_str x) = Some t /\ TyGraphSpec.settled tg' p (key_of t) in
  fixes 0 e /\
  forall o k c, In (k, c) (keyed g o) -> exists t i ks, node g o = Some (NOp t) /\ In (tg_str t, ks) (df_impls s) /\ In (k, i) (registered ks) /\
    match i with IDef d => exists n, children g c = [n] /\ fixes n (d_expr d) | IIntrinsic _ _ => True end.
Proof.
  intros s e root anon g tg xs R L tg' fixes. destruct (start_settles _ _ _ _ _ _ R L) as (cs & H & A). destruct (init_notes _ _ _ _ H) as (NO & _ & HK).
  pose proof (TyGraphProofs.compile_keeps tkey tkey_eqb tkey_eqb_eq xs (tg, [])) as (_ & K & _). cbn [fst] in K.
  assert (FX : forall n e', noted (df_types s) g cs n e' -> fixes n e').
  { intros n e' N p x W. destruct (written_noted _ _ _ _ _ _ _ N W) as (c & t & Ic & <- & <- & G). exists (what c). split; [auto|]. apply K. now apply A. }
  split; [now apply FX|]. intros o k c I. destruct (HK o k c I) as (t & i & ks & Q1 & Q2 & Q3 & _ & Q5 & _). exists t, i, ks. split; [auto|]. split; [auto|]. split; [auto|].
  destruct i as [|d]; [exact Coq.Init.Logic.I|]. destruct Q5 as (x & Cx & Nx). eauto.
Qed.

(** A type without a definition is refused. *)
Theorem unknown_refused : forall s e x r, written e x -> get_type (df_types s) (tg_str x) = None -> init s e <> Ok r.
Proof.
  intros s e x [g cs] W N H. destruct (init_notes _ _ _ _ H) as (NO & _). destruct (noted_written s _ _ _ _ _ NO W) as (t & E). congruence.
Qed.
