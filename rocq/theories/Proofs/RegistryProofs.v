(** Definition histories. *)
From Coq Require Import String List ZArith NArith Bool Lia.
From Verif Require Import Model.Base Model.Value Model.Ast Model.Registry Spec.RegistrySpec.
Import ListNotations.

Lemma ty_eqb_refl : forall a, ty_eqb a a = true.
Proof. intros [| | | | | |[n v]]; try reflexivity. apply str_eqb_refl. Qed.
Lemma ty_eqb_sym : forall a b, ty_eqb a b = ty_eqb b a.
Proof.
  intros [| | | | | |[n v]] [| | | | | |[n' v']]; try reflexivity. cbn.
  destruct (str_eqb_spec n n'), (str_eqb_spec n' n); congruence.
Qed.
Lemma ty_eqb_trans : forall a b c, ty_eqb a b = true -> ty_eqb b c = true -> ty_eqb a c = true.
Proof.
  intros [| | | | | |[n v]] [| | | | | |[n' v']] [| | | | | |[n'' v'']]; try discriminate; try reflexivity. cbn.
  rewrite !str_eqb_eq. congruence.
Qed.
Lemma str_eqb_sym : forall a b, str_eqb a b = str_eqb b a.
Proof. intros a b. destruct (str_eqb_spec a b), (str_eqb_spec b a); congruence. Qed.
Lemma str_eqb_trans : forall a b c, str_eqb a b = true -> str_eqb b c = true -> str_eqb a c = true.
Proof. intros a b c. rewrite !str_eqb_eq. congruence. Qed.

Section Alist.
  Variables K V : Type.
  Variable eqb : K -> K -> bool.
  Hypothesis Hrefl : forall a, eqb a a = true.
  Hypothesis Hsym : forall a b, eqb a b = eqb b a.
  Hypothesis Htrans : forall a b c, eqb a b = true -> eqb b c = true -> eqb a c = true.
  Implicit Types (m : list (K * V)).

  Lemma eqb_swap : forall a b c, eqb a b = true -> eqb a c = eqb b c.
  Proof.
    intros a b c H. destruct (eqb a c) eqn:E1, (eqb b c) eqn:E2; auto.
    - rewrite <- E2. symmetry. apply Htrans with a; auto. now rewrite Hsym.
    - rewrite <- E1. apply Htrans with b; auto.
  Qed.
  Lemma alookup_ainsert : forall m k v k', alookup eqb k' (ainsert eqb k v m) = if eqb k k' then Some v else alookup eqb k' m.
  Proof.
    induction m as [|[k0 v0] m IH]; intros k v k'; cbn; [reflexivity|].
    destruct (eqb k0 k) eqn:E; cbn.
    - rewrite (eqb_swap k0 k k' E). now destruct (eqb k k').
    - rewrite IH. destruct (eqb k0 k') eqn:E2; [|reflexivity].
      destruct (eqb k k') eqn:E3; [|reflexivity].
      rewrite (Hsym k k') in E3. rewrite (Htrans _ _ _ E2 E3) in E. discriminate.
  Qed.
  Lemma alookup_swap : forall m a b, eqb a b = true -> alookup eqb a m = alookup eqb b m.
  Proof.
    induction m as [|[k v] m IH]; intros a b H; cbn; [reflexivity|].
    assert (E : eqb k a = eqb k b).
    { rewrite (Hsym k a), (Hsym k b). now apply eqb_swap. }
    rewrite E, (IH _ _ H). reflexivity.
  Qed.
  Lemma alookup_find : forall m k, alookup eqb k m = option_map snd (find (fun e => eqb (fst e) k) m).
  Proof. induction m as [|[k0 v0] m IH]; intros k; cbn; [reflexivity|]. destruct (eqb k0 k); cbn; auto. Qed.

  (** One entry per key *)
  Definition uniq m : Prop := forall i j a b, nth_error m i = Some a -> nth_error m j = Some b -> eqb (fst a) (fst b) = true -> i = j.
  Lemma uniq_cons : forall e m, uniq (e :: m) <-> (forall a, In a m -> eqb (fst e) (fst a) = false) /\ uniq m.
  Proof.
    intros e m. split.
    - intros H. split.
      + intros a I. destruct (eqb (fst e) (fst a)) eqn:E; [|reflexivity].
        apply In_nth_error in I. destruct I as [i I]. specialize (H 0 (S i) e a eq_refl I E). discriminate.
      + intros i j a b A B C. specialize (H (S i) (S j) a b A B C). lia.
    - intros [H1 H2] [|i] [|j] a b A B C; cbn in A, B; auto.
      + injection A as <-. apply nth_error_In in B. rewrite H1 in C by auto. discriminate.
      + injection B as <-. apply nth_error_In in A. rewrite Hsym, H1 in C by auto. discriminate.
      + f_equal. eapply H2; eauto.
  Qed.
  Lemma ainsert_in : forall m k v a, In a (ainsert eqb k v m) -> eqb (fst a) k = true \/ In a m.
  Proof.
    induction m as [|[k0 v0] m IH]; intros k v a H; cbn in H.
    - destruct H as [<-|[]]. left. apply Hrefl.
    - destruct (eqb k0 k) eqn:E.
      + destruct H as [<-|H]; [now left|right; now right].
      + destruct H as [<-|H]; [right; now left|]. destruct (IH _ _ _ H); [now left|right; now right].
  Qed.
  Lemma uniq_ainsert : forall m k v, uniq m -> uniq (ainsert eqb k v m).
  Proof.
    induction m as [|[k0 v0] m IH]; intros k v H; cbn.
    - intros [|[|i]] [|[|j]] a b A B C; cbn in *; congruence.
    - apply uniq_cons in H. destruct H as [H1 H2]. destruct (eqb k0 k) eqn:E; apply uniq_cons; cbn [fst] in *.
      + split; auto.
      + split; [|auto]. intros a I. destruct (ainsert_in _ _ _ _ I) as [C|C]; [|auto].
        destruct (eqb k0 (fst a)) eqn:E2; [|reflexivity]. rewrite (Htrans _ _ _ E2 C) in E. discriminate.
  Qed.
  Lemma uniq_filter : forall p m, uniq m -> uniq (filter p m).
  Proof.
    induction m as [|e m IH]; intros H; cbn; [auto|]. apply uniq_cons in H. destruct H as [H1 H2].
    destruct (p e); [|auto]. apply uniq_cons. split; [|auto]. intros a I. apply filter_In in I. apply H1. tauto.
  Qed.
  Lemma alookup_none : forall m k, (forall a, In a m -> eqb (fst a) k = false) -> alookup eqb k m = None.
  Proof.
    induction m as [|[k0 v0] m IH]; intros k H; cbn; [reflexivity|]. generalize (H (k0, v0) (or_introl eq_refl)). cbn. intros ->. apply IH. intros; apply H; now right.
  Qed.
  Lemma alookup_filter : forall p m k, uniq m ->
    alookup eqb k (filter p m) = match find (fun e => eqb (fst e) k) m with Some e => if p e then Some (snd e) else None | None => None end.
  Proof.
    induction m as [|[k0 v0] m IH]; intros k H; cbn; [reflexivity|]. apply uniq_cons in H. destruct H as [H1 H2]. cbn [fst] in H1.
    destruct (eqb k0 k) eqn:E.
    - destruct (p (k0, v0)); cbn; [now rewrite E|]. apply alookup_none. intros a I. apply filter_In in I.
      rewrite Hsym, <- (eqb_swap k0 k); auto. apply H1. tauto.
    - destruct (p (k0, v0)); cbn; [rewrite E|]; now apply IH.
  Qed.
  Lemma alookup_in : forall m k v, alookup eqb k m = Some v -> exists k', In (k', v) m /\ eqb k' k = true.
  Proof.
    induction m as [|[k0 v0] m IH]; intros k v H; cbn in H; [discriminate|]. destruct (eqb k0 k) eqn:E.
    - injection H as <-. exists k0. split; [now left|auto].
    - destruct (IH _ _ H) as (k' & I & E'). exists k'. split; [now right|auto].
  Qed.
End Alist.
Arguments uniq {K V} eqb m.

Lemma uniq_nodup : forall V (m : list (str * V)), uniq str_eqb m <-> NoDup (map fst m).
Proof.
  induction m as [|e m IH].
  - split; [constructor|]. intros _ [|i] j a b A; discriminate.
  - rewrite uniq_cons by (apply str_eqb_sym). cbn. split.
    + intros [H1 H2]. constructor; [|tauto]. intros I. apply in_map_iff in I. destruct I as (a & E & I).
      specialize (H1 _ I). rewrite E, str_eqb_refl in H1. discriminate.
    + intros H. inversion H; subst. split; [|tauto]. intros a I. apply str_eqb_neq. intros E. apply H2. rewrite E. now apply in_map.
Qed.

Notation sins := (alookup_ainsert _ _ _ str_eqb_sym str_eqb_trans).
Notation tins := (alookup_ainsert _ _ _ ty_eqb_sym ty_eqb_trans).

(** ** Reading *)
Definition kat (m : impls) (op : str) (key : option ty) : option impl :=
  match alookup str_eqb op m with Some k => keys_at k key | None => None end.
Lemma at_key_kat : forall m op key, at_key m op key = kat m op key.
Proof.
  intros m op key. unfold at_key, kat. rewrite alookup_find. destruct (find _ m) as [[n k]|]; [|reflexivity]. cbn.
  destruct key; [|reflexivity]. cbn. now rewrite alookup_find.
Qed.
Lemma get_impl_kat : forall m op t, get_impl m op t = match kat m op (Some t) with Some i => Some i | None => kat m op None end.
Proof. intros. unfold get_impl, kat. destruct (alookup str_eqb op m); reflexivity. Qed.

Lemma kat_default : forall m op key, keys_at (entry_or_default m op) key = kat m op key.
Proof. intros. unfold entry_or_default, kat. destruct (alookup str_eqb op m); [reflexivity|]. now destruct key. Qed.
Lemma keys_at_set : forall k key i key', keys_at (keys_set k key i) key' = if key_eqb key key' then Some i else keys_at k key'.
Proof.
  intros k [t|] i [t'|]; cbn; try reflexivity. apply tins.
Qed.
Lemma kat_set : forall m op key i op' key',
  kat (ainsert str_eqb op (keys_set (entry_or_default m op) key i) m) op' key' =
  if str_eqb op op' && key_eqb key key' then Some i else kat m op' key'.
Proof.
  intros. unfold kat at 1. rewrite sins.
  destruct (str_eqb_spec op op') as [<-|n]; cbn; [|reflexivity]. rewrite keys_at_set, kat_default. reflexivity.
Qed.

Definition tuniq (k : keys) : Prop := uniq ty_eqb (k_tys k).
Definition good (m : impls) : Prop := uniq str_eqb m /\ forall op k, In (op, k) m -> tuniq k.
Lemma wf_good : forall m, wf_impls m <-> good m.
Proof. intros m. unfold wf_impls, good. rewrite uniq_nodup. reflexivity. Qed.

Lemma good_default : forall m op, good m -> tuniq (entry_or_default m op).
Proof.
  intros m op [_ H]. unfold entry_or_default. destruct (alookup str_eqb op m) as [k|] eqn:E.
  - apply alookup_in in E. destruct E as (k' & I & _). eauto.
  - intros [|i] j a b A; discriminate.
Qed.
Lemma tuniq_set : forall k key i, tuniq k -> tuniq (keys_set k key i).
Proof.
  intros k [t|] i H; [|exact H].
  apply uniq_ainsert; [exact ty_eqb_refl|exact ty_eqb_sym|exact ty_eqb_trans|exact H].
Qed.
Lemma ainsert_in2 : forall V k (v : V) m a, In a (ainsert str_eqb k v m) -> snd a = v \/ In a m.
Proof.
  induction m as [|[k0 v0] m IH]; intros a H; cbn in H.
  - destruct H as [<-|[]]. now left.
  - destruct (str_eqb k0 k).
    + destruct H as [<-|H]; [now left|right; now right].
    + destruct H as [<-|H]; [right; now left|]. destruct (IH _ H); [now left|right; now right].
Qed.
Lemma good_set : forall m op key i, good m -> good (ainsert str_eqb op (keys_set (entry_or_default m op) key i) m).
Proof.
  intros m op key i G. split.
  - apply uniq_ainsert; [exact str_eqb_refl|exact str_eqb_sym|exact str_eqb_trans|apply G].
  - intros op' k I. apply ainsert_in2 in I. cbn in I. destruct I as [->|I].
    + apply tuniq_set, good_default, G.
    + destruct G as [_ G]. eauto.
Qed.

(** ** Clearing *)
Lemma kept_upd : forall (f : bool) (i : impl), (match im_loc i with LOgma => Some i | LShell => if f then Some i else None | LFile _ _ => None end)
  = if kept f (im_loc i) then Some i else None.
Proof. intros f i. destruct (im_loc i); reflexivity. Qed.

Lemma find_map_retain : forall (p : impl -> bool) (m : impls) op,
  alookup str_eqb op (map (fun e => (fst e, keys_retain p (snd e))) m) = option_map (keys_retain p) (alookup str_eqb op m).
Proof. induction m as [|[n k] m IH]; intros op; cbn; [reflexivity|]. destruct (str_eqb n op); auto. Qed.

Lemma keys_at_retain : forall p k key, tuniq k ->
  keys_at (keys_retain p k) key = match keys_at k key with Some i => if p i then Some i else None | None => None end.
Proof.
  intros p k [t|] H; [|reflexivity]. cbn.
  rewrite (alookup_filter _ _ _ ty_eqb_sym ty_eqb_trans) by exact H. rewrite alookup_find.
  destruct (find _ (k_tys k)) as [[t' i]|]; reflexivity.
Qed.
Lemma keys_empty_at : forall k key, keys_empty k = true -> keys_at k key = None.
Proof. intros [[|e l] [i|]] [t|] H; try discriminate; reflexivity. Qed.

Lemma uniq_map : forall (p : impl -> bool) (m : impls), uniq str_eqb m -> uniq str_eqb (map (fun e => (fst e, keys_retain p (snd e))) m).
Proof. intros p m. rewrite !uniq_nodup, map_map. cbn. auto. Qed.

Lemma kat_clear : forall f m op key, good m ->
  kat (impls_clear f m) op key = match kat m op key with Some i => if kept f (im_loc i) then Some i else None | None => None end.
Proof.
  intros f m op key [G1 G2]. unfold impls_clear.
  set (m1 := map (fun e => (fst e, keys_retain (fun i => kept f (im_loc i)) (snd e))) m). unfold kat at 1.
  rewrite (alookup_filter _ _ _ str_eqb_sym str_eqb_trans) by (now apply uniq_map).
  assert (E : option_map (@snd str keys) (find (fun e => str_eqb (fst e) op) m1) = option_map (keys_retain (fun i => kept f (im_loc i))) (alookup str_eqb op m)).
  { rewrite <- alookup_find. apply find_map_retain. }
  unfold kat. destruct (alookup str_eqb op m) as [k|] eqn:Ek.
  - destruct (find _ m1) as [[n k1]|]; [|discriminate]. cbn in E. injection E as ->. cbn [snd].
    apply alookup_in in Ek. destruct Ek as (n' & I & _).
    rewrite <- (keys_at_retain (fun i => kept f (im_loc i)) k key (G2 _ _ I)).
    destruct (keys_empty (keys_retain _ k)) eqn:EE; cbn [negb]; [|reflexivity]. now rewrite keys_empty_at.
  - destruct (find _ m1) as [[n k1]|]; [discriminate|reflexivity].
Qed.
Lemma good_clear : forall f m, good m -> good (impls_clear f m).
Proof.
  intros f m [G1 G2]. split.
  - apply uniq_filter; [exact str_eqb_sym|]. now apply uniq_map.
  - intros op k I. apply filter_In in I. destruct I as [I _]. apply in_map_iff in I. destruct I as ([n k0] & E & I).
    cbn in E. injection E as <- <-. unfold tuniq. cbn. apply uniq_filter; [exact ty_eqb_sym|]. eapply G2; eauto.
Qed.

(** ** Constructors *)
Lemma add_inits_ok : forall l ops m, good m -> exists m', add_inits false l ops m = Ok m' /\ good m' /\
  forall op key, kat m' op key = match key, find (fun e => str_eqb (fst e) op) (rev ops) with
                                 | None, Some (_, f) => Some (IIntrinsic l f)
                                 | _, _ => kat m op key
                                 end.
Proof.
  induction ops as [|[o f] ops IH]; intros m G; cbn.
  - exists m. split; [auto|]. split; [auto|]. now intros op [t|].
  - assert (E : insert_intrinsic false m o None l f = Ok (ainsert str_eqb o (keys_set (entry_or_default m o) None (IIntrinsic l f)) m)).
    { unfold insert_intrinsic. now destruct (keys_at _ None). }
    rewrite E. cbn [rbind]. destruct (IH _ (good_set _ o None (IIntrinsic l f) G)) as (m' & E' & G' & H). exists m'. split; [auto|]. split; [auto|].
    intros op key. rewrite H. destruct key as [t|].
    + rewrite kat_set. cbn. now rewrite andb_false_r.
    + assert (F : forall A (q : A -> bool) l x, find q (l ++ [x]) = match find q l with Some y => Some y | None => if q x then Some x else None end).
      { clear. induction l as [|y l IH]; intros x; cbn; [reflexivity|]. now destruct (q y). }
      rewrite F. destruct (find _ (rev ops)) as [[n g]|]; [reflexivity|].
      rewrite kat_set. cbn. now destruct (str_eqb o op).
Qed.

Lemma find_rev_map : forall A B (q : B -> bool) (g : A -> B) l, find q (rev (map g l)) = option_map g (find (fun a => q (g a)) (rev l)).
Proof. intros A B q g l. rewrite <- map_rev. induction (rev l) as [|x l' IH]; cbn; [reflexivity|]. destruct (q (g x)); auto. Qed.

Lemma last_named_find : forall (A B : Type) (nm : A -> str) n (vs : list A) i,
  last_named n i (map (fun v => (nm v, tt)) vs) =
  option_map fst (find (fun iv : nat * A => str_eqb (nm (snd iv)) n) (rev (combine (seq i (length vs)) vs))).
Proof.
  intros A _ nm n. induction vs as [|v vs IH]; intros i; cbn; [reflexivity|].
  assert (F : forall A (q : A -> bool) l x, find q (l ++ [x]) = match find q l with Some y => Some y | None => if q x then Some x else None end).
  { clear. induction l as [|y l IH]; intros x; cbn; [reflexivity|]. now destruct (q y). }
  rewrite F, IH. destruct (find _ (rev (combine (seq (S i) (length vs)) vs))) as [[j w]|]; [reflexivity|]. cbn.
  destruct (str_eqb (nm v) n); reflexivity.
Qed.

Lemma constructs_find : forall d op, option_map snd (find (fun e => str_eqb (fst e) op) (rev (init_ops d))) = option_map (fun v => IInit d v) (constructs d op).
Proof.
  intros [n [vs|fs]] op; unfold init_ops, constructs; cbn [td_tv td_name].
  - rewrite find_rev_map. cbn [fst snd].
    rewrite (last_named_find _ unit (fun v => n ++ lit "::" ++ fst v)).
    destruct (find _ _) as [[j w]|]; reflexivity.
  - cbn. destruct (str_eqb n op); reflexivity.
Qed.

(** ** One command *)
Lemma insert_type_spec : forall ts p ts' d, insert_type ts p = Ok (ts', d) ->
  td_name d = pt_name p /\ contains_type ts (pt_name p) = false /\ ts' = ainsert str_eqb (pt_name p) (TyUser (pt_loc p) d) ts.
Proof.
  intros ts p ts' d H. unfold insert_type in H.
  destruct (from_parsed_def ts p) as [d0| |] eqn:E; cbn in H; try discriminate.
  assert (N : td_name d0 = pt_name p).
  { unfold from_parsed_def in E. destruct (pt_tv p).
    - destruct (parsed_variants ts vs); cbn in E; try discriminate. now injection E as <-.
    - destruct (parsed_fields ts fs); cbn in E; try discriminate. now injection E as <-. }
  destruct (contains_type ts (td_name d0)) eqn:C; [discriminate|]. injection H as <- <-. rewrite N in *. auto.
Qed.

Lemma get_type_insert : forall ts n e n', get_type (ainsert str_eqb n e ts) n' = if str_eqb n n' then Some (ent_ty e) else get_type ts n'.
Proof. intros. unfold get_type. rewrite sins. now destruct (str_eqb n n'). Qed.

#[local] Opaque keys_set.
Lemma step_lookup : forall s c r s', good (df_impls s) -> process false s c = (r, s') ->
  good (df_impls s') /\ forall op key, kat (df_impls s') op key = upd op key (kat (df_impls s) op key) (event_of s c r s').
Proof.
  intros s [d|p|f] r s' G H; cbn [process] in H.
  - unfold process_impl in H. destruct (assert_all_ops_defined _ d); try (injection H as <- <-; cbn; auto).
    unfold event_of. destruct (d_in d) as [n|].
    + destruct (get_type (df_types s) n) as [t|]; [|injection H as <- <-; cbn; auto].
      unfold insert_impl in H. fold (kat (df_impls s) (d_name d) (Some t)) in H.
      destruct (kat (df_impls s) (d_name d) (Some t)) as [i|].
      * destruct (ogma_defined i); injection H as <- <-; cbn [df_impls event_of upd]; auto; (split; [now apply good_set|]).
        intros op key. now rewrite kat_set.
      * injection H as <- <-; cbn [df_impls event_of upd]; auto; (split; [now apply good_set|]). intros op key. now rewrite kat_set.
    + unfold insert_impl in H. fold (kat (df_impls s) (d_name d) None) in H.
      destruct (kat (df_impls s) (d_name d) None) as [i|].
      * destruct (ogma_defined i); injection H as <- <-; cbn [df_impls event_of upd]; auto; (split; [now apply good_set|]).
        intros op key. now rewrite kat_set.
      * injection H as <- <-; cbn [df_impls event_of upd]; auto; (split; [now apply good_set|]). intros op key. now rewrite kat_set.
  - unfold process_ty in H. destruct (insert_type (df_types s) p) as [[ts d]| |] eqn:E; try (injection H as <- <-; cbn; auto).
    destruct (insert_type_spec _ _ _ _ E) as (N & C & ->).
    destruct (add_inits_ok (pt_loc p) (init_ops d) _ G) as (m' & Em & G' & L). rewrite Em in H. injection H as <- <-. cbn.
    split; [exact G'|]. intros op key. rewrite get_type_insert, str_eqb_refl. cbn. rewrite L.
    generalize (constructs_find d op). destruct key as [t|]; [reflexivity|].
    destruct (find _ _) as [[n f]|], (constructs d op) as [v|]; cbn; intros X; try discriminate; [|reflexivity]. now injection X as ->.
  - injection H as <- <-. cbn. split; [now apply good_clear|]. intros op key. rewrite kat_clear by auto.
    destruct (kat (df_impls s) op key) as [i|]; [|reflexivity]. now rewrite kept_upd.
Qed.

#[local] Transparent keys_set.
Lemma run_lookup : forall cs s rs s', good (df_impls s) -> run false s cs = (rs, s') ->
  good (df_impls s') /\ forall op key, kat (df_impls s') op key = latest (kat (df_impls s) op key) (observe false s cs) op key.
Proof.
  induction cs as [|c cs IH]; intros s rs s' G H; cbn in H.
  - injection H as <- <-. cbn. auto.
  - destruct (process false s c) as [r s1] eqn:E. destruct (run false s1 cs) as [rs1 s2] eqn:E2. injection H as <- <-.
    destruct (step_lookup _ _ _ _ G E) as [G1 L1]. destruct (IH _ _ _ G1 E2) as [G2 L2]. split; [auto|].
    intros op key. rewrite L2, L1. cbn [observe]. rewrite E. reflexivity.
Qed.

Lemma lookup_history : forall s cs op t, wf s ->
  get_impl (df_impls (snd (run false s cs))) op t =
  match latest (at_key (df_impls s) op (Some t)) (observe false s cs) op (Some t) with
  | Some i => Some i
  | None => latest (at_key (df_impls s) op None) (observe false s cs) op None
  end.
Proof.
  intros s cs op t [W _]. apply wf_good in W. destruct (run false s cs) as [rs s'] eqn:E.
  destruct (run_lookup _ _ _ _ W E) as [_ L]. rewrite get_impl_kat, !L, !at_key_kat. reflexivity.
Qed.

Lemma exact_history : forall s cs op key, wf s ->
  at_key (df_impls (snd (run false s cs))) op key = latest (at_key (df_impls s) op key) (observe false s cs) op key.
Proof.
  intros s cs op key [W _]. apply wf_good in W. destruct (run false s cs) as [rs s'] eqn:E.
  destruct (run_lookup _ _ _ _ W E) as [_ L]. rewrite !at_key_kat. apply L.
Qed.

(** ** Consequences for C33 *)
Lemma get_impl_ty : forall m op t t', ty_eqb t t' = true -> get_impl m op t = get_impl m op t'.
Proof.
  intros m op t t' H. unfold get_impl, keys_get. destruct (alookup str_eqb op m) as [k|]; [|reflexivity].
  now rewrite (alookup_swap _ _ _ ty_eqb_sym ty_eqb_trans (k_tys k) t t' H).
Qed.

Lemma key_eqb_sym : forall a b, key_eqb a b = key_eqb b a.
Proof. intros [a|] [b|]; try reflexivity. apply ty_eqb_sym. Qed.

(** An accepted definition. *)
Lemma def_accepted : forall s d s', wf s -> process false s (CDef d) = (Ok tt, s') ->
  exists key, (match d_in d with Some n => exists t, get_type (df_types s) n = Some t /\ key = Some t | None => key = None end) /\
    (forall op k, at_key (df_impls s') op k = if str_eqb (d_name d) op && key_eqb key k then Some (IDef d) else at_key (df_impls s) op k) /\
    df_types s' = df_types s.
Proof.
  intros s d s' [W _] H. apply wf_good in W. destruct (step_lookup _ _ _ _ W H) as [_ L].
  cbn [process] in H. unfold process_impl in H. destruct (assert_all_ops_defined _ d); try discriminate.
  unfold event_of in L. destruct (d_in d) as [n|].
  - destruct (get_type (df_types s) n) as [t|] eqn:Et; [|discriminate].
    destruct (insert_impl (df_impls s) (Some t) d) as [m| |]; try discriminate.
    exists (Some t). split; [eauto|]. split; [|now injection H as <-].
    intros op k. rewrite !at_key_kat, L. reflexivity.
  - destruct (insert_impl (df_impls s) None d) as [m| |]; try discriminate.
    exists None. split; [auto|]. split; [|now injection H as <-].
    intros op k. rewrite !at_key_kat, L. reflexivity.
Qed.

Lemma wf_process : forall s c r s', wf s -> process false s c = (r, s') -> wf s'.
Proof.
  intros s c r s' [W1 W2] H. split.
  - apply wf_good. apply wf_good in W1. now destruct (step_lookup _ _ _ _ W1 H).
  - destruct c as [d|p|f]; cbn [process] in H.
    + unfold process_impl in H. destruct (assert_all_ops_defined _ d); try (injection H as <- <-; auto).
      destruct (match d_in d with Some n => _ | None => _ end); try (injection H as <- <-; auto).
      destruct (insert_impl _ _ _); injection H as <- <-; auto.
    + unfold process_ty in H. destruct (insert_type (df_types s) p) as [[ts d]| |] eqn:E; try (injection H as <- <-; auto).
      destruct (insert_type_spec _ _ _ _ E) as (N & C & ->).
      assert (NoDup (map fst (ainsert str_eqb (pt_name p) (TyUser (pt_loc p) d) (df_types s)))).
      { apply uniq_nodup. apply uniq_ainsert; [exact str_eqb_refl|exact str_eqb_sym|exact str_eqb_trans|now apply uniq_nodup]. }
      destruct (add_inits _ _ _ _); injection H as <- <-; auto.
    + injection H as <- <-. cbn. apply uniq_nodup. apply uniq_filter; [exact str_eqb_sym|]. now apply uniq_nodup.
Qed.

(** Two accepted definitions that are not for the same op and type can be made in either order. *)
Lemma defs_commute : forall s d1 d2 s1 s12 s2 s21, wf s ->
  process false s (CDef d1) = (Ok tt, s1) -> process false s1 (CDef d2) = (Ok tt, s12) ->
  process false s (CDef d2) = (Ok tt, s2) -> process false s2 (CDef d1) = (Ok tt, s21) ->
  (forall k1 k2, match d_in d1 with Some n => get_type (df_types s) n | None => None end = k1 ->
                 match d_in d2 with Some n => get_type (df_types s) n | None => None end = k2 ->
                 str_eqb (d_name d1) (d_name d2) && key_eqb k1 k2 = false) ->
  forall op t, get_impl (df_impls s12) op t = get_impl (df_impls s21) op t.
Proof.
  intros s d1 d2 s1 s12 s2 s21 W H1 H12 H2 H21 D op t.
  assert (W1 := wf_process _ _ _ _ W H1). assert (W2 := wf_process _ _ _ _ W H2).
  destruct (def_accepted _ _ _ W H1) as (k1 & K1 & L1 & T1).
  destruct (def_accepted _ _ _ W H2) as (k2 & K2 & L2 & T2).
  destruct (def_accepted _ _ _ W1 H12) as (k2' & K2' & L12 & _).
  destruct (def_accepted _ _ _ W2 H21) as (k1' & K1' & L21 & _).
  rewrite T1 in K2'. rewrite T2 in K1'.
  assert (k2' = k2). { destruct (d_in d2); [|congruence]. destruct K2 as (a & A & ->), K2' as (b & B & ->). congruence. }
  assert (k1' = k1). { destruct (d_in d1); [|congruence]. destruct K1 as (a & A & ->), K1' as (b & B & ->). congruence. }
  subst k1' k2'.
  assert (D' : str_eqb (d_name d1) (d_name d2) && key_eqb k1 k2 = false).
  { apply D.
    - destruct (d_in d1); [|congruence]. destruct K1 as (a & A & ->). auto.
    - destruct (d_in d2); [|congruence]. destruct K2 as (a & A & ->). auto. }
  assert (E : forall k, kat (df_impls s12) op k = kat (df_impls s21) op k).
  { intros k. rewrite <- !at_key_kat, L12, L21, L1, L2.
    destruct (str_eqb_spec (d_name d1) op) as [E1|N1], (str_eqb_spec (d_name d2) op) as [E2|N2]; cbn [andb]; auto.
    rewrite E1, E2, str_eqb_refl in D'. cbn in D'.
    destruct (key_eqb k1 k) eqn:Q1, (key_eqb k2 k) eqn:Q2; auto.
    exfalso. destruct k1 as [a|], k2 as [b|], k as [c|]; try discriminate. cbn in *.
    rewrite (ty_eqb_sym b c) in Q2. rewrite (ty_eqb_trans _ _ _ Q1 Q2) in D'. discriminate. }
  rewrite !get_impl_kat, !E. reflexivity.
Qed.

(** ** Clearing everything *)
Lemma kat_loc : forall m op key i, kat m op key = Some i -> exists n k, In (n, k) m /\ (k_any k = Some i \/ In i (map snd (k_tys k))).
Proof.
  intros m op key i H. unfold kat in H. destruct (alookup str_eqb op m) as [k|] eqn:E; [|discriminate].
  apply alookup_in in E. destruct E as (n & I & _). exists n, k. split; [auto|].
  destruct key as [t|]; cbn in H; [|now left]. right. apply alookup_in in H. destruct H as (t' & J & _).
  change i with (snd (t', i)). now apply in_map.
Qed.

Definition keeps (base cur : option impl) (made : Prop) : Prop :=
  (cur = base /\ ~ made) \/ (forall i, cur = Some i -> im_loc i <> LOgma) /\ (made \/ base = None).

(** What a command of the user does to a key whose entry was made by ogma. *)
Lemma by_user_event : forall s c r s', by_user c -> process false s c = (r, s') ->
  match event_of s c r s' with EvDef _ d => d_loc d <> LOgma | EvTy l _ => l <> LOgma | _ => True end.
Proof.
  intros s [d|p|f] r s' U H; unfold event_of; destruct r; auto.
  destruct (get_type (df_types s') (pt_name p)) as [[]|]; auto.
Qed.
Lemma ogma_not_redefined : forall s c r s' op key i, process false s c = (r, s') -> good (df_impls s) ->
  kat (df_impls s) op key = Some i -> im_loc i = LOgma ->
  match event_of s c r s' with EvDef k d => str_eqb (d_name d) op && key_eqb k key = false | _ => True end.
Proof.
  intros s [d|p|f] r s' op key i H G K L; unfold event_of; destruct r; auto.
  2: { destruct (get_type (df_types s') (pt_name p)) as [[]|]; auto. }
  destruct (str_eqb_spec (d_name d) op) as [<-|n]; [|reflexivity]. cbn [andb].
  cbn [process] in H. unfold process_impl in H. destruct (assert_all_ops_defined _ d); try discriminate.
  assert (O : ogma_defined i = true).
  { destruct i as [l f|d']; [reflexivity|]. cbn in *. now rewrite L. }
  assert (Q : forall k, key_eqb k key = true -> kat (df_impls s) (d_name d) k = Some i).
  { intros k Q. rewrite <- K. unfold kat. destruct (alookup _ _ _) as [ks|]; [|reflexivity].
    destruct k as [a1|], key as [b1|]; try discriminate; [|reflexivity].
    apply (alookup_swap _ _ _ ty_eqb_sym ty_eqb_trans (k_tys ks) a1 b1 Q). }
  destruct (d_in d) as [n|].
  - destruct (get_type (df_types s) n) as [t|]; [|discriminate].
    destruct (key_eqb (Some t) key) eqn:E; [|reflexivity]. exfalso.
    unfold insert_impl in H. fold (kat (df_impls s) (d_name d) (Some t)) in H. rewrite (Q _ E), O in H. discriminate.
  - destruct (key_eqb None key) eqn:E; [|reflexivity]. exfalso.
    unfold insert_impl in H. fold (kat (df_impls s) (d_name d) None) in H. rewrite (Q _ E), O in H. discriminate.
Qed.

Definition loc_dec (l : loc) : {l = LOgma} + {l <> LOgma}.
Proof. destruct l; [left; reflexivity| |]; right; discriminate. Defined.

(** [cur] is what a sequence of commands made of the ogma entry [base]. *)
Lemma clear_inv : forall cs s op key, Forall by_user cs -> good (df_impls s) ->
  forall base (made : Prop), (forall i, base = Some i -> im_loc i = LOgma) ->
  keeps base (kat (df_impls s) op key) made ->
  keeps base (kat (df_impls (snd (run false s cs))) op key) (made \/ key = None /\ constructor_made (observe false s cs) op).
Proof.
  induction cs as [|c cs IH]; intros s op key U G base made B K.
  - cbn. destruct K as [[K1 K2]|[K1 K2]]; [left|right].
    + split; auto. intros [M|[_ (l & d & v & [] & _)]]. auto.
    + split; auto. tauto.
  - inversion U as [|? ? U1 U2]; subst. cbn [run observe]. destruct (process false s c) as [r s1] eqn:E.
    destruct (run false s1 cs) as [rs s2] eqn:E2.
    destruct (step_lookup _ _ _ _ G E) as [G1 L].
    assert (A := by_user_event _ _ _ _ U1 E).
    set (ev := event_of s c r s1) in *.
    set (here := key = None /\ exists l d v, ev = EvTy l d /\ constructs d op = Some v).
    assert (K' : keeps base (kat (df_impls s1) op key) (made \/ here)).
    { rewrite L. destruct ev as [k d|l d|f|] eqn:Eev; cbn [upd].
      - assert (NH : ~ here) by (intros (_ & l & d0 & v & X & _); discriminate).
        destruct (str_eqb (d_name d) op && key_eqb k key) eqn:M.
        + right. split; [intros i X; injection X as <-; exact A|].
          destruct K as [[K1 K2]|[K1 [K2|K2]]]; [|tauto|tauto]. right.
          destruct base as [i|]; [|reflexivity]. exfalso.
          generalize (ogma_not_redefined s c r s1 op key i E G K1 (B i eq_refl)). fold ev. rewrite Eev, M. discriminate.
        + destruct K as [[K1 K2]|[K1 K2]]; [left|right]; split; auto; tauto.
      - destruct key as [t|].
        + assert (NH : ~ here) by (intros (X & _); discriminate). destruct K as [[K1 K2]|[K1 K2]]; [left|right]; split; auto; tauto.
        + destruct (constructs d op) as [v|] eqn:C.
          * right. split; [intros i X; injection X as <-; exact A|]. left. right. split; [reflexivity|]. exists l, d, v. auto.
          * assert (NH : ~ here) by (intros (_ & l0 & d0 & v & X & Y); injection X as <- <-; congruence).
            destruct K as [[K1 K2]|[K1 K2]]; [left|right]; split; auto; tauto.
      - assert (NH : ~ here) by (intros (_ & l & d0 & v & X & _); discriminate).
        destruct K as [[K1 K2]|[K1 K2]].
        + rewrite K1. left. split; [|tauto]. destruct base as [i|]; [|reflexivity]. now rewrite (B i eq_refl).
        + right. split; [|tauto]. intros i X. destruct (kat (df_impls s) op key) as [j|]; [|discriminate].
          apply (K1 i). destruct (im_loc j); try congruence. destruct f; congruence.
      - assert (NH : ~ here) by (intros (_ & l & d0 & v & X & _); discriminate).
        destruct K as [[K1 K2]|[K1 K2]]; [left|right]; split; auto; tauto. }
    generalize (IH s1 op key U2 G1 base (made \/ here) B K'). rewrite E2. cbn [snd].
    assert (Q : (made \/ here) \/ key = None /\ constructor_made (observe false s1 cs) op <->
                made \/ key = None /\ constructor_made (ev :: observe false s1 cs) op).
    { unfold here, constructor_made. split.
      - intros [[M|(k & l & d & v & X & Y)]|(k & l & d & v & X & Y)]; [tauto| |]; right; (split; [auto|]); exists l, d, v; (split; [|auto]).
        + left. congruence. + right. auto.
      - intros [M|(k & l & d & v & [X|X] & Y)]; [tauto| |].
        + left. right. split; auto. exists l, d, v. split; congruence.
        + right. split; auto. exists l, d, v. auto. }
    intros [[X Y]|[X Y]]; [left|right]; split; auto; tauto.
Qed.

Lemma clear_all : forall base cs, built_in base -> Forall by_user cs ->
  forall s r s', s = snd (run false base cs) -> process false s (CClear false) = (r, s') ->
  forall op key,
    (~ (key = None /\ constructor_made (observe false base cs) op) -> at_key (df_impls s') op key = at_key (df_impls base) op key) /\
    (key = None -> constructor_made (observe false base cs) op -> at_key (df_impls s') op key = None).
Proof.
  intros base cs ((W & WT) & BI & BT) U s r s' -> H op key. apply wf_good in W.
  assert (B : forall i, kat (df_impls base) op key = Some i -> im_loc i = LOgma).
  { intros i E. destruct (kat_loc _ _ _ _ E) as (n & k & I & D). eapply BI; eauto. }
  assert (K := clear_inv cs base op key U W (kat (df_impls base) op key) False B (or_introl (conj eq_refl (fun x => x)))).
  destruct (run false base cs) as [rs s1] eqn:E. cbn [snd] in *. destruct (run_lookup _ _ _ _ W E) as [G1 _].
  cbn in H. injection H as <- <-. rewrite !at_key_kat. cbn [df_impls]. rewrite kat_clear by auto.
  destruct K as [[K1 K2]|[K1 K2]].
  - rewrite K1. split.
    + intros _. destruct (kat (df_impls base) op key) as [i|]; [|reflexivity]. now rewrite (B i eq_refl).
    + intros -> C. exfalso. apply K2. auto.
  - assert (N : match kat (df_impls s1) op key with Some i => if kept false (im_loc i) then Some i else None | None => None end = None).
    { destruct (kat (df_impls s1) op key) as [i|]; [|reflexivity]. specialize (K1 i eq_refl). destruct (im_loc i); [congruence| |]; reflexivity. }
    rewrite N. split; [|auto]. intros C. destruct K2 as [[[]|K2]|K2]; [tauto|congruence].
Qed.

(** Types. *)
Definition tkeeps (base cur : option tyent) : Prop :=
  cur = base \/ (base = None /\ forall e, cur = Some e -> exists l d, e = TyUser l d /\ l <> LOgma).
Lemma types_clear_lookup : forall f ts n, uniq str_eqb ts ->
  alookup str_eqb n (types_clear f ts) =
  match alookup str_eqb n ts with
  | Some (TyUser l d) => if kept f l then Some (TyUser l d) else None
  | x => x
  end.
Proof.
  intros f ts n H. unfold types_clear. rewrite (alookup_filter _ _ _ str_eqb_sym str_eqb_trans) by exact H.
  rewrite alookup_find. destruct (find _ ts) as [[m [t|l d]]|]; reflexivity.
Qed.
Lemma types_inv : forall cs s n, Forall by_user cs -> wf s -> forall base,
  (forall l d, base = Some (TyUser l d) -> l = LOgma) ->
  tkeeps base (alookup str_eqb n (df_types s)) -> tkeeps base (alookup str_eqb n (df_types (snd (run false s cs)))) /\ wf (snd (run false s cs)).
Proof.
  induction cs as [|c cs IH]; intros s n U W base B K; [cbn; auto|].
  inversion U as [|? ? U1 U2]; subst. cbn [run]. destruct (process false s c) as [r s1] eqn:E.
  generalize (IH s1 n U2 (wf_process _ _ _ _ W E) base B). destruct (run false s1 cs) as [rs s2]. cbn [snd].
  intros X. apply X. clear X IH.
  destruct c as [d|p|f]; cbn [process] in E.
  - unfold process_impl in E. destruct (assert_all_ops_defined _ d); try (injection E as <- <-; auto).
    destruct (match d_in d with Some n => _ | None => _ end); try (injection E as <- <-; auto).
    destruct (insert_impl _ _ _); injection E as <- <-; auto.
  - unfold process_ty in E. destruct (insert_type (df_types s) p) as [[ts d]| |] eqn:E1; try (injection E as <- <-; auto).
    destruct (insert_type_spec _ _ _ _ E1) as (N & C & ->).
    assert (T : df_types s1 = ainsert str_eqb (pt_name p) (TyUser (pt_loc p) d) (df_types s)).
    { destruct (add_inits _ _ _ _); injection E as <- <-; auto. }
    rewrite T, sins. destruct (str_eqb_spec (pt_name p) n) as [<-|ne]; [|exact K].
    unfold contains_type in C. destruct (alookup str_eqb (pt_name p) (df_types s)) as [e|] eqn:El; [discriminate|].
    right. split.
    + destruct K as [K|[K _]]; congruence.
    + intros e X. injection X as <-. eauto.
  - injection E as <- <-. cbn. destruct W as [_ WT]. rewrite types_clear_lookup by (now apply uniq_nodup).
    destruct K as [K|[K1 K2]].
    + left. rewrite K. destruct base as [[t|l d]|]; auto. now rewrite (B _ _ eq_refl).
    + right. split; auto. intros e X. destruct (alookup str_eqb n (df_types s)) as [[t|l d]|] eqn:El; try discriminate.
      * destruct (K2 _ eq_refl) as (l & d & Y & _). discriminate.
      * destruct (K2 _ eq_refl) as (l' & d' & Y & Z). injection Y as <- <-. destruct (kept f l); [|discriminate].
        injection X as <-. eauto.
Qed.

Lemma types_restored : forall base cs, built_in base -> Forall by_user cs ->
  forall s r s', s = snd (run false base cs) -> process false s (CClear false) = (r, s') ->
  forall n, get_type (df_types s') n = get_type (df_types base) n.
Proof.
  intros base cs (W & BI & BT) U s r s' -> H n.
  assert (B : forall l d, alookup str_eqb n (df_types base) = Some (TyUser l d) -> l = LOgma).
  { intros l d E. apply alookup_in in E. destruct E as (n' & I & _). eauto. }
  destruct (types_inv cs base n U W _ B (or_introl eq_refl)) as [K [_ WT]].
  cbn in H. injection H as <- <-. cbn. unfold get_type. rewrite types_clear_lookup by (now apply uniq_nodup).
  destruct K as [K|[K1 K2]].
  - rewrite K. destruct (alookup str_eqb n (df_types base)) as [[t|l d]|]; auto. now rewrite (B _ _ eq_refl).
  - rewrite K1. destruct (alookup str_eqb n (df_types (snd (run false base cs)))) as [e|]; [|reflexivity].
    destruct (K2 e eq_refl) as (l & d & -> & NO). destruct l; [congruence| |]; reflexivity.
Qed.

(** Clearing only files. *)
Lemma clear_files : forall s r s', wf s -> process false s (CClear true) = (r, s') ->
  (forall op key, at_key (df_impls s') op key =
     match at_key (df_impls s) op key with
     | Some i => match im_loc i with LFile _ _ => None | _ => Some i end
     | None => None
     end) /\
  (forall n, alookup str_eqb n (df_types s') =
     match alookup str_eqb n (df_types s) with Some (TyUser (LFile _ _) _) => None | x => x end).
Proof.
  intros s r s' [W WT] H. cbn in H. injection H as <- <-. apply wf_good in W. cbn. split.
  - intros op key. rewrite !at_key_kat, kat_clear by auto. destruct (kat (df_impls s) op key) as [i|]; [|reflexivity].
    now destruct (im_loc i).
  - intros n. rewrite types_clear_lookup by (now apply uniq_nodup).
    destruct (alookup str_eqb n (df_types s)) as [[t|[] d]|]; reflexivity.
Qed.

(** Refused commands. *)
Lemma no_redefinition : forall debug s p t, get_type (df_types s) (pt_name p) = Some t ->
  exists e, process debug s (CDefTy p) = (Err e, s).
Proof.
  intros debug s p t H. cbn. unfold process_ty, insert_type.
  assert (P : forall fs, (exists l, parsed_fields (df_types s) fs = Ok l) \/ exists x, parsed_fields (df_types s) fs = Err x).
  { induction fs as [|f fs IH]; [left; eexists; reflexivity|]. cbn.
    destruct (get_type (df_types s) (pf_ty f)); [|eauto]. destruct (forallb _ _); [|eauto].
    destruct IH as [(l & ->)|(x & ->)]; cbn; eauto. }
  assert (V : forall vs, (exists l, parsed_variants (df_types s) vs = Ok l) \/ exists x, parsed_variants (df_types s) vs = Err x).
  { induction vs as [|[n [fs|]] vs IH]; [left; eexists; reflexivity| |]; cbn.
    - destruct (P fs) as [(l & ->)|(y & ->)]; cbn; [|eauto]. destruct IH as [(l' & ->)|(x & ->)]; cbn; eauto.
    - destruct IH as [(l & ->)|(x & ->)]; cbn; eauto. }
  assert (C : contains_type (df_types s) (pt_name p) = true).
  { unfold get_type in H. unfold contains_type. now destruct (alookup str_eqb (pt_name p) (df_types s)). }
  unfold from_parsed_def. destruct (pt_tv p) as [vs|fs].
  - destruct (V vs) as [(l & ->)|(x & ->)]; cbn; [rewrite C|]; eauto.
  - destruct (P fs) as [(l & ->)|(x & ->)]; cbn; [rewrite C|]; eauto.
Qed.
Lemma refused_unchanged : forall s c e s', process false s c = (Err e, s') -> s' = s.
Proof.
  intros s [d|p|f] e s' H; cbn [process] in H.
  - unfold process_impl in H. destruct (assert_all_ops_defined _ d); try (injection H as <- <-; auto); try discriminate; auto.
    destruct (match d_in d with Some n => _ | None => _ end); try discriminate; [|injection H as <- <-; auto].
    destruct (insert_impl _ _ _); try discriminate. injection H as <- <-; auto.
  - unfold process_ty in H. destruct (insert_type (df_types s) p) as [[ts d]| |]; try discriminate; [|injection H as <- <-; auto].
    assert (X : forall l ops m, exists m', add_inits false l ops m = Ok m').
    { intros l. induction ops as [|[o f] ops IH]; intros m; cbn; [eauto|].
      unfold insert_intrinsic. destruct (keys_at _ _); cbn; apply IH. }
    destruct (X (pt_loc p) (init_ops d) (df_impls s)) as [m' Em]. rewrite Em in H. discriminate.
  - discriminate.
Qed.
Lemma types_stay : forall s c r s' n t, process false s c = (r, s') -> (forall f, c <> CClear f) ->
  get_type (df_types s) n = Some t -> get_type (df_types s') n = Some t.
Proof.
  intros s [d|p|f] r s' n t H NC T; [| |destruct (NC f eq_refl)]; cbn [process] in H.
  - unfold process_impl in H. destruct (assert_all_ops_defined _ d); try (injection H as <- <-; auto).
    destruct (match d_in d with Some n => _ | None => _ end); try (injection H as <- <-; auto).
    destruct (insert_impl _ _ _); injection H as <- <-; auto.
  - unfold process_ty in H. destruct (insert_type (df_types s) p) as [[ts d]| |] eqn:E1; try (injection H as <- <-; auto).
    destruct (insert_type_spec _ _ _ _ E1) as (N & C & ->).
    assert (X : df_types s' = ainsert str_eqb (pt_name p) (TyUser (pt_loc p) d) (df_types s)).
    { destruct (add_inits _ _ _ _); injection H as <- <-; auto. }
    rewrite X, get_type_insert. destruct (str_eqb_spec (pt_name p) n) as [<-|ne]; [|exact T].
    unfold contains_type in C. unfold get_type in T. destruct (alookup str_eqb (pt_name p) (df_types s)); discriminate.
Qed.
