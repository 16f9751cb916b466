(** Proofs for C78: the order of definitions. *)
From Coq Require Import String List ZArith NArith Bool Arith Lia Permutation.
From Verif Require Import Model.Base Model.Value Model.Ast Model.Registry Spec.RegistrySpec Spec.LoadSpec Proofs.RegistryProofs.
Import ListNotations.

Definition below (a b : types) : Prop := forall n t, get_type a n = Some t -> get_type b n = Some t.
Lemma below_trans : forall a b c, below a b -> below b c -> below a c. Proof. unfold below. eauto. Qed.

Lemma fields_agree : forall a b T fs x y, below a T -> below b T -> parsed_fields a fs = Ok x -> parsed_fields b fs = Ok y -> x = y.
Proof.
  intros a b T. induction fs as [|f fs IH]; intros x y A B X Y; cbn in X, Y; [congruence|].
  destruct (get_type a (pf_ty f)) as [t|] eqn:E1; [|discriminate]. destruct (get_type b (pf_ty f)) as [u|] eqn:E2; [|discriminate].
  pose proof (A _ _ E1). pose proof (B _ _ E2). assert (t = u) by congruence. subst u.
  destruct (forallb (contains_type a) (pf_params f)); [|discriminate]. destruct (forallb (contains_type b) (pf_params f)); [|discriminate].
  destruct (parsed_fields a fs) as [x'| |] eqn:F1; cbn in X; try discriminate. destruct (parsed_fields b fs) as [y'| |] eqn:F2; cbn in Y; try discriminate.
  rewrite (IH x' y') in X by auto. congruence.
Qed.
Lemma variants_agree : forall a b T vs x y, below a T -> below b T -> parsed_variants a vs = Ok x -> parsed_variants b vs = Ok y -> x = y.
Proof.
  intros a b T. induction vs as [|[n [fs|]] vs IH]; intros x y A B X Y; cbn in X, Y; [congruence| |].
  - destruct (parsed_fields a fs) as [p| |] eqn:F1; cbn in X; try discriminate. destruct (parsed_fields b fs) as [q| |] eqn:F2; cbn in Y; try discriminate.
    destruct (parsed_variants a vs) as [x'| |] eqn:V1; cbn in X; try discriminate. destruct (parsed_variants b vs) as [y'| |] eqn:V2; cbn in Y; try discriminate.
    rewrite (IH x' y'), (fields_agree a b T fs p q) in X by auto. congruence.
  - destruct (parsed_variants a vs) as [x'| |] eqn:V1; cbn in X; try discriminate. destruct (parsed_variants b vs) as [y'| |] eqn:V2; cbn in Y; try discriminate.
    rewrite (IH x' y') in X by auto. congruence.
Qed.
Lemma parsed_agree : forall a b T p x y, below a T -> below b T -> from_parsed_def a p = Ok x -> from_parsed_def b p = Ok y -> x = y.
Proof.
  intros a b T p x y A B X Y. unfold from_parsed_def in X, Y. destruct (pt_tv p) as [vs|fs].
  - destruct (parsed_variants a vs) as [x'| |] eqn:V1; cbn in X; try discriminate. destruct (parsed_variants b vs) as [y'| |] eqn:V2; cbn in Y; try discriminate.
    rewrite (variants_agree a b T vs x' y') in X by auto. congruence.
  - destruct (parsed_fields a fs) as [x'| |] eqn:V1; cbn in X; try discriminate. destruct (parsed_fields b fs) as [y'| |] eqn:V2; cbn in Y; try discriminate.
    rewrite (fields_agree a b T fs x' y') in X by auto. congruence.
Qed.

Definition no_clear (c : cmd) : Prop := forall f, c <> CClear f.
(** An accepted definition of a type *)
Lemma type_step : forall s p s', wf s -> process false s (CDefTy p) = (Ok tt, s') ->
  exists d, from_parsed_def (df_types s) p = Ok d /\ (forall n, get_type (df_types s') n = if str_eqb (pt_name p) n then Some (TDef d) else get_type (df_types s) n).
Proof.
  intros s p s' [W _] H. cbn [process] in H. unfold process_ty in H.
  destruct (insert_type (df_types s) p) as [[ts d]| |] eqn:E; try discriminate.
  destruct (insert_type_spec _ _ _ _ E) as (N & K & ->). unfold insert_type in E.
  destruct (from_parsed_def (df_types s) p) as [d0| |] eqn:F; cbn in E; try discriminate.
  exists d0. split; [reflexivity|]. assert (d0 = d) by (destruct (contains_type (df_types s) (td_name d0)); congruence). subst d0.
  destruct (add_inits _ _ _ _) as [m| |]; try discriminate. injection H as <-. cbn [df_types]. intros n. now rewrite get_type_insert.
Qed.
Lemma def_step : forall s d s', process false s (CDef d) = (Ok tt, s') -> df_types s' = df_types s.
Proof.
  intros s d s' H. cbn [process] in H. unfold process_impl in H. destruct (assert_all_ops_defined _ d); try discriminate.
  destruct (match d_in d with Some n => _ | None => _ end); try discriminate. destruct (insert_impl _ _ _); try discriminate. now injection H as <-.
Qed.
Lemma run_cons : forall s c cs rs s', run false s (c :: cs) = (rs, s') -> Forall (eq (Ok tt)) rs ->
  exists s1 rs1, process false s c = (Ok tt, s1) /\ run false s1 cs = (rs1, s') /\ Forall (eq (Ok tt)) rs1.
Proof.
  intros s c cs rs s' H F. cbn in H. destruct (process false s c) as [r s1]. destruct (run false s1 cs) as [rs1 s2] eqn:E.
  injection H as <- <-. inversion F; subst. eauto.
Qed.
Lemma run_below : forall cs s rs s', run false s cs = (rs, s') -> Forall (eq (Ok tt)) rs -> Forall no_clear cs -> below (df_types s) (df_types s').
Proof.
  induction cs as [|c cs IH]; intros s rs s' H F N; [injection H as <- <-; intros n t; auto|].
  destruct (run_cons _ _ _ _ _ H F) as (s1 & rs1 & P & R & F1). inversion N; subst.
  intros n t E. eapply IH; eauto. eapply types_stay; eauto.
Qed.
(** Each definition of a type in a run gives its type at the end. *)
Lemma run_types : forall cs s rs s', wf s -> run false s cs = (rs, s') -> Forall (eq (Ok tt)) rs -> Forall no_clear cs ->
  forall p, In (CDefTy p) cs -> exists ts d, below ts (df_types s') /\ from_parsed_def ts p = Ok d /\ get_type (df_types s') (pt_name p) = Some (TDef d).
Proof.
  induction cs as [|c cs IH]; intros s rs s' W H F N p I; [destruct I|].
  destruct (run_cons _ _ _ _ _ H F) as (s1 & rs1 & P & R & F1). inversion N; subst.
  pose proof (run_below _ _ _ _ R F1 H3) as B. destruct I as [->|I].
  - destruct (type_step _ _ _ W P) as (d & D & G). exists (df_types s), d. split; [|split; [exact D|]].
    + intros n t E. apply B. eapply types_stay; eauto.
    + apply B. rewrite G, str_eqb_refl. reflexivity.
  - eapply (IH s1 rs1); [eapply wf_process; [exact W|exact P]|exact R|exact F1|exact H3|exact I].
Qed.
Lemma types_into : forall cs s rs s' T, wf s -> run false s cs = (rs, s') -> Forall (eq (Ok tt)) rs -> Forall no_clear cs -> below (df_types s) T ->
  (forall p, In (CDefTy p) cs -> exists ts d, below ts T /\ from_parsed_def ts p = Ok d /\ get_type T (pt_name p) = Some (TDef d)) ->
  below (df_types s') T.
Proof.
  induction cs as [|c cs IH]; intros s rs s' T W H F N B G; [injection H as <- <-; exact B|].
  destruct (run_cons _ _ _ _ _ H F) as (s1 & rs1 & P & R & F1). inversion N; subst.
  eapply IH; [eapply wf_process; eauto|exact R|exact F1|assumption| |intros; apply G; now right].
  destruct c as [d|p|f].
  - rewrite (def_step _ _ _ P). exact B.
  - destruct (type_step _ _ _ W P) as (d & D & Q). destruct (G p (or_introl eq_refl)) as (ts & d' & B' & D' & Q').
    rewrite (parsed_agree ts (df_types s) T p d' d) in Q' by auto.
    intros n t E. rewrite Q in E. destruct (str_eqb_spec (pt_name p) n) as [<-|ne]; [congruence|auto].
  - destruct (H2 f eq_refl).
Qed.

(** ** Implementations *)
Lemma defines_dec : forall T c op key, (exists i, defines T c op key i) \/ (forall i, ~ defines T c op key i).
Proof.
  intros T [d|p|f] op key; cbn.
  - destruct (str_eqb_spec (d_name d) op) as [E|E]; [|right; intros i (_ & X & _); congruence].
    destruct (d_in d) as [n|], key as [t|].
    + destruct (get_type T n) as [u|]; [|right; intros i (_ & _ & x & X & _); discriminate].
      destruct (ty_eqb u t) eqn:Q; [left; eauto 8|]. right. intros i (_ & _ & x & X & Y). congruence.
    + right. intros i (_ & _ & []).
    + right. intros i (_ & _ & []).
    + left. eauto.
  - destruct key as [t|]; [right; intros i [X _]; discriminate|].
    destruct (get_type T (pt_name p)) as [[| | | | | |d]|]; try (right; intros i (_ & x & v & X & _); discriminate).
    destruct (constructs d op) as [v|] eqn:C; [left; eauto 8|]. right. intros i (_ & x & v & X & Y & _). congruence.
  - right. tauto.
Qed.
Lemma step_defines : forall s c s' T op key, wf s -> process false s c = (Ok tt, s') -> no_clear c -> below (df_types s') T ->
  (forall i, defines T c op key i -> kat (df_impls s') op key = Some i) /\ ((forall i, ~ defines T c op key i) -> kat (df_impls s') op key = kat (df_impls s) op key).
Proof.
  intros s c s' T op key W P N B. destruct (step_lookup _ _ _ _ (proj1 (wf_good _) (proj1 W)) P) as [_ L]. specialize (L op key). rewrite L. clear L.
  destruct c as [d|p|f]; [| |destruct (N f eq_refl)]; cbn [event_of].
  - pose proof (def_step _ _ _ P) as ET. destruct (def_accepted _ _ _ W P) as (k0 & K & _). rewrite ET in B. cbn [upd defines].
    assert (Q : match d_in d with Some n => get_type (df_types s) n | None => None end = k0).
    { destruct (d_in d) as [n|]; [destruct K as (t & G & ->); exact G|now rewrite K]. }
    rewrite Q. split.
    + intros i (-> & E & M). assert (Z : str_eqb (d_name d) op && key_eqb k0 key = true).
      { rewrite E, str_eqb_refl. cbn. destruct (d_in d) as [n|], key as [t|]; try tauto.
        - destruct K as (t0 & G & ->). destruct M as (u & U & V). rewrite (B _ _ G) in U. injection U as <-. exact V.
        - subst k0. reflexivity. }
      rewrite Z. reflexivity.
    + intros M. destruct (str_eqb (d_name d) op && key_eqb k0 key) eqn:Z; [|reflexivity]. exfalso. apply andb_true_iff in Z. destruct Z as [Z1 Z2].
      apply str_eqb_eq in Z1. apply (M (IDef d)). split; [reflexivity|]. split; [exact Z1|].
      destruct (d_in d) as [n|].
      * destruct K as (t0 & G & ->). destruct key as [t|]; [|discriminate]. exists t0. split; [auto|exact Z2].
      * subst k0. destruct key; [discriminate|exact I].
  - destruct (type_step _ _ _ W P) as (d & D & G). rewrite (G (pt_name p)), str_eqb_refl. cbn [upd defines].
    assert (GT : get_type T (pt_name p) = Some (TDef d)) by (apply B; rewrite G, str_eqb_refl; reflexivity).
    split.
    + intros i (-> & d' & v & X & Y & ->). rewrite GT in X. injection X as <-. rewrite Y. reflexivity.
    + intros M. destruct key as [t|]; [reflexivity|]. destruct (constructs d op) as [v|] eqn:C; [|reflexivity].
      exfalso. eapply M. split; [reflexivity|]. exists d, v. eauto.
Qed.
Lemma run_none : forall cs s rs s' T op key, wf s -> run false s cs = (rs, s') -> Forall (eq (Ok tt)) rs -> Forall no_clear cs -> below (df_types s') T ->
  (forall c i, In c cs -> ~ defines T c op key i) -> kat (df_impls s') op key = kat (df_impls s) op key.
Proof.
  induction cs as [|c cs IH]; intros s rs s' T op key W H F N B D; [now injection H as <- <-|].
  destruct (run_cons _ _ _ _ _ H F) as (s1 & rs1 & P & R & F1). inversion N; subst.
  rewrite (IH s1 rs1 s' T op key); [|eapply wf_process; [exact W|exact P]|exact R|exact F1|assumption|exact B|intros; apply D; now right].
  eapply step_defines; eauto; [eapply below_trans; [eapply run_below; eauto|exact B]|]. intros i. apply D. now left.
Qed.
Lemma run_some : forall a s x b rs s' T op key i, wf s -> run false s (a ++ x :: b) = (rs, s') -> Forall (eq (Ok tt)) rs -> Forall no_clear (a ++ x :: b) -> below (df_types s') T ->
  defines T x op key i -> (forall c i, In c b -> ~ defines T c op key i) -> kat (df_impls s') op key = Some i.
Proof.
  induction a as [|c a IH]; intros s x b rs s' T op key i W H F N B D Z; cbn [app] in *;
    destruct (run_cons _ _ _ _ _ H F) as (s1 & rs1 & P & R & F1); inversion N; subst.
  - rewrite (run_none b s1 rs1 s' T op key); [|eapply wf_process; [exact W|exact P]|exact R|exact F1|assumption|exact B|exact Z].
    eapply step_defines; eauto. eapply below_trans; [eapply run_below; eauto|exact B].
  - eapply (IH s1 x b rs1); [eapply wf_process; [exact W|exact P]|exact R|exact F1|assumption|exact B|exact D|exact Z].
Qed.

Lemma find_definer : forall T op key cs, (exists a x b i, cs = a ++ x :: b /\ defines T x op key i) \/ (forall c i, In c cs -> ~ defines T c op key i).
Proof.
  induction cs as [|c cs IH]; [right; intros c i []|]. destruct (defines_dec T c op key) as [[i D]|D].
  - left. exists [], c, cs, i. auto.
  - destruct IH as [(a & x & b & i & -> & X)|Z]; [left; exists (c :: a), x, b, i; auto|]. right. intros c' i [<-|I]; auto.
Qed.
Lemma defines_ext : forall T T' c op key i, (forall n, get_type T n = get_type T' n) -> defines T c op key i -> defines T' c op key i.
Proof.
  intros T T' [d|p|f] op key i E; cbn; [| |auto].
  - destruct (d_in d), key; auto. intros (A & B & u & U & V). rewrite E in U. eauto 8.
  - intros (A & d & v & U & V). rewrite E in U. eauto 8.
Qed.

Lemma any_order : forall s cs cs' rs s1 rs' s2, wf s -> Permutation cs cs' -> run false s cs = (rs, s1) -> run false s cs' = (rs', s2) ->
  Forall (eq (Ok tt)) rs -> Forall (eq (Ok tt)) rs' -> (forall f, ~ In (CClear f) cs) -> apart (df_types s1) cs ->
  (forall n, get_type (df_types s1) n = get_type (df_types s2) n) /\ (forall op key, at_key (df_impls s1) op key = at_key (df_impls s2) op key).
Proof.
  intros s cs cs' rs s1 rs' s2 W PM R1 R2 F1 F2 NC AP.
  assert (N1 : Forall no_clear cs) by (apply Forall_forall; intros c I f ->; exact (NC f I)).
  assert (N2 : Forall no_clear cs') by (apply Forall_forall; intros c I f ->; apply (NC f); eapply Permutation_in; [apply Permutation_sym; exact PM|exact I]).
  assert (B12 : below (df_types s1) (df_types s2)).
  { eapply types_into; [exact W|exact R1|exact F1|exact N1|eapply run_below; eauto|]. intros p I. eapply run_types; [exact W|exact R2|exact F2|exact N2|]. eapply Permutation_in; eauto. }
  assert (B21 : below (df_types s2) (df_types s1)).
  { eapply types_into; [exact W|exact R2|exact F2|exact N2|eapply run_below; eauto|]. intros p I. eapply run_types; [exact W|exact R1|exact F1|exact N1|].
    eapply Permutation_in; [apply Permutation_sym; exact PM|exact I]. }
  assert (ET : forall n, get_type (df_types s1) n = get_type (df_types s2) n).
  { intros n. destruct (get_type (df_types s1) n) as [t|] eqn:E1; [symmetry; auto|]. destruct (get_type (df_types s2) n) as [t|] eqn:E2; [|reflexivity].
    rewrite (B21 _ _ E2) in E1. discriminate. }
  split; [exact ET|]. intros op key. rewrite !at_key_kat.
  destruct (find_definer (df_types s1) op key cs) as [(a & x & b & i & -> & D)|Z].
  - assert (Zb : forall c j, In c b -> ~ defines (df_types s1) c op key j).
    { intros c j I X. apply in_split in I. destruct I as (b1 & b2 & ->). eapply (AP a x b1 c b2); eauto. }
    assert (Za : forall c j, In c a -> ~ defines (df_types s1) c op key j).
    { intros c j I X. apply in_split in I. destruct I as (a1 & a2 & ->). eapply (AP a1 c a2 x b); eauto. now rewrite <- app_assoc. }
    rewrite (run_some a s x b rs s1 (df_types s1) op key i) by (auto; intros n t; auto).
    assert (I : In x cs') by (eapply Permutation_in; [exact PM|apply in_elt]). apply in_split in I. destruct I as (a' & b' & ->).
    apply Permutation_app_inv in PM. symmetry. eapply (run_some a' s x b' rs' s2 (df_types s1) op key i); eauto.
    intros c j I. assert (J : In c (a ++ b)) by (eapply Permutation_in; [apply Permutation_sym; exact PM|apply in_or_app; auto]).
    apply in_app_or in J. destruct J; auto.
  - rewrite (run_none cs s rs s1 (df_types s1) op key) by (auto; intros n t; auto).
    symmetry. eapply (run_none cs' s rs' s2 (df_types s1) op key); eauto. intros c i I. apply Z. eapply Permutation_in; [apply Permutation_sym; exact PM|exact I].
Qed.
