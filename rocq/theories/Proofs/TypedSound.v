(** Each op is type sound. *)
From Coq Require Import String List ZArith NArith Bool Lia.
From Verif Require Import Model.Base Model.Value Model.TableCrate Model.RowPar Model.TableOps Model.Tuple Model.Exec Model.Intrinsics
  Model.Compare Model.Typed Spec.TableSpec Spec.TypeSpec Spec.ExecSpec Spec.CompareSpec Spec.TypingSpec Proofs.RegistryProofs Proofs.LinkProofs
  Proofs.ListLemmas Proofs.CompareProofs Proofs.RectProofs Proofs.TypedProofs Proofs.TypedTables Proofs.TypedOps.
Import ListNotations.

Section SoundOps.
Variable W : Type.
Variable U : ty -> Prop.
Hypothesis HU : universe U.
Variable Sg : nat -> ty.
Variable L : nat.
Local Notation step := (step W).
Local Notation hold := (hold W).
Local Notation node := (node W).
Local Notation is_a := (is_a U).
Local Notation hold_ok := (hold_ok W U Sg L).
Local Notation step_ok := (step_ok W U Sg L).
Local Notation act_ok := (act_ok W U Sg L).
Local Notation node_ok := (node_ok W U Sg L).
Local Notation plain := (plain W).
Local Notation good_holds := (Forall2 (fun h g => hold_ok (sg_env g) (sg_in g) h (sg_out g))).
Local Notation good_val := (good_val U).
Local Notation good := (good U).

Ltac base := apply (U_base U HU); repeat (first [left; reflexivity|right]).
Ltac refl_within := intros ? Hwithin; exact Hwithin.

(** *** what is known of a single argument *)
Lemma arg_supplied D t n n' : U t -> node_ok D n -> supplied t n = Ok n' -> n' = n /\ n_in n = t.
Proof. intros Ut Hn. apply (supplied_ok W U HU); auto. exact (proj1 Hn). Qed.
Lemma arg_returns D t n n' : U t -> node_ok D n -> returns t n = Ok n' -> n' = n /\ n_out n = t.
Proof. intros Ut Hn. apply (returns_ok W U HU); auto. exact (proj1 (proj2 Hn)). Qed.
Lemma arg_concrete D n h : node_ok D n -> plain n -> concrete n = Ok h -> hold_ok D (n_in n) h (n_out n).
Proof. intros Hn Hp H. assert (K := concrete_ok W U HU Sg L D n h Hn H). rewrite plain_row in K by auto. exact K. Qed.
Lemma arg_out D n : node_ok D n -> U (n_out n).
Proof. intro H. apply H. Qed.

(** take the arguments of an op one by one *)
Ltac step_arg :=
  match goal with
  | H : context [supplied ?t ?n] |- _ =>
      let E := fresh "E" in let Ei := fresh "Ei" in
      destruct (supplied t n) as [?| |] eqn:E; try discriminate; cbn [rbind] in H;
      eapply arg_supplied in E; [destruct E as [-> Ei]| |eassumption]; [|try assumption; try base]
  | H : context [returns ?t ?n] |- _ =>
      let E := fresh "E" in let Ei := fresh "Eo" in
      destruct (returns t n) as [?| |] eqn:E; try discriminate; cbn [rbind] in H;
      eapply arg_returns in E; [destruct E as [-> Ei]| |eassumption]; [|try assumption; try base]
  end.

Ltac open_input H Ui :=
  match type of H with context [assert_input ?t ?i] =>
    let E := fresh "Ea" in destruct (assert_input t i) as [[]| |] eqn:E; try discriminate; cbn [rbind] in H;
    apply (input_ok U HU) in E; [|base|exact Ui]; subst i
  end.

(** *** tables *)
Lemma table_ok t : good t -> is_a (VTab t) TTab.
Proof. apply is_tab_good. Qed.
Lemma row_ok' t i : good t -> i < length t -> is_a (VTabRow t i 0) TTabRow.
Proof. intros. apply is_row_good. auto. Qed.
Lemma ent_good e : ent_ok good_val e -> good_val (val_of_ent e).
Proof. destruct e; cbn; auto; intros _; split; try base; constructor. Qed.

Lemma hdr_lt name h j : hdr_position name h = Some j -> j < length h.
Proof.
  revert j. induction h as [|e h IH]; intros j H; cbn in H; [discriminate|].
  assert (K : option_map S (hdr_position name h) = Some j -> j < length (e :: h)).
  { destruct (hdr_position name h) as [k|]; cbn; [|discriminate]. intro E. injection E as <-. specialize (IH _ eq_refl). lia. }
  destruct e as [| |[]]; auto. destruct (str_eqb s name); auto. injection H as <-. cbn. lia.
Qed.
Lemma row_lookup_ok t i x : good t -> i < length t -> is_a x TStr -> behaves (ent_ok good_val) (row_lookup t i x).
Proof.
  intros [R C] Hi Hx. inversion Hx; subst. unfold row_lookup. cbn [as_str rbind]. unfold row_entry, cached_col_idx. cbn [cache_get].
  destruct t as [|h t]; [cbn in Hi; lia|]. unfold col_idx. destruct (hdr_position s h) as [j|] eqn:E; cbn [fst rbind]; [|cbn; lia].
  unfold entry_at, get_cell. destruct (nth_error (h :: t) i) as [r|] eqn:Er; [|apply nth_error_None in Er; lia].
  destruct (nth_error r j) as [e|] eqn:Ee.
  - cbn. apply nth_error_In in Er, Ee. unfold cells_ok, row_ok in C. rewrite Forall_forall in C. specialize (C r Er).
    rewrite Forall_forall in C. auto.
  - apply nth_error_None in Ee. apply hdr_lt in E. apply nth_error_In in Er. rewrite (R r h Er (or_introl eq_refl)) in Ee. lia.
Qed.
Lemma cnv_ok e out : U out -> ent_ok good_val e -> behaves (fun x => is_a x out) (cnv_value e out).
Proof.
  intros Uo He. apply ent_good in He. destruct He as [Uv Hv]. unfold cnv_value. destruct (ty_eqb _ out) eqn:E; [|cbn; lia].
  cbn. apply (U_eq U HU) in E; auto. rewrite <- E. exact Hv.
Qed.

Lemma usize_ok v : is_a v TNum -> behaves (fun _ => True) (cnv_num_to_usize v).
Proof. inversion 1; subst. unfold cnv_num_to_usize. destruct (_ && _); [destruct (_ <=? _)%N|]; cbn; auto; lia. Qed.
Lemma u128_ok v : is_a v TNum -> behaves (fun _ => True) (cnv_num_to_u128 v).
Proof. inversion 1; subst. unfold cnv_num_to_u128. destruct (_ && _); cbn; auto; lia. Qed.

Lemma behaves_rbind {A B} (P : A -> Prop) (Q : B -> Prop) (r : res A) (k : A -> res B) :
  behaves P r -> (forall a, r = Ok a -> P a -> behaves Q (k a)) -> behaves Q (let? a := r in k a).
Proof. destruct r; cbn; auto. Qed.
Lemma behaves_eq {A} (P : A -> Prop) r : behaves P r -> behaves (fun a => r = Ok a /\ P a) r.
Proof. destruct r; cbn; auto. Qed.

(** *** over the rows of a table *)
Lemma over_rows_ok a t args vars tout D' (D : slots) out g :
  nth_error args a = Some (Sig TTabRow out g) -> within g D -> good t -> forall k i acc cont, i + k <= length t ->
  Forall (fun x => is_a x out) acc ->
  (forall xs, Forall (fun x => is_a x out) xs -> length xs = length acc + k -> act_ok args vars tout D' D (cont xs)) ->
  act_ok args vars tout D' D (over_rows a t k i acc cont).
Proof.
  intros Ea Wi G. induction k as [|k IH]; intros i acc cont Hi Ha Hc; cbn [over_rows].
  - apply Hc; [apply Forall_rev; auto|rewrite rev_length; lia].
  - exists (Sig TTabRow out g). split; [exact Ea|]. split; [exact Wi|]. split; [apply row_ok'; auto; lia|].
    intros x Hx. apply IH; [lia|constructor; auto|]. intros xs Hxs Hl. apply Hc; auto. cbn in Hl. lia.
Qed.

Lemma fields_nth {A} name (fs : list (str * A)) j t : find_field name fs = Some (j, t) -> nth_error (map snd fs) j = Some t /\ exists x, In (x, t) fs.
Proof.
  revert j. induction fs as [|[x u] fs IH]; intros j H; cbn in H; [discriminate|]. destruct (str_eqb x name).
  - injection H as <- <-. cbn. eauto.
  - destruct (find_field name fs) as [[i a]|] eqn:E; [|discriminate]. injection H as <- <-. destruct (IH _ eq_refl) as [H1 [y H2]]. cbn. eauto.
Qed.
Lemma accessor_ok t (h : hold) r : accessor t h = Ok r -> forall v, is_a v t -> exists x, field_get (fst r) v = Ok x /\ is_a x (snd r).
Proof.
  intros H v Hv. unfold accessor in H. destruct t as [| | | | | |[n [vs|fs]]]; try discriminate.
  destruct (literal_str h) as [x| |]; try discriminate. cbn [rbind] in H. destruct (find_field x fs) as [[j t]|] eqn:E; [|discriminate].
  injection H as <-. apply fields_nth in E. destruct E as [E _].
  inversion Hv as [| | | | | |d k fs' data V F]; subst. unfold variant_fields in V. cbn [td_tv] in V. destruct k; [|discriminate]. injection V as <-.
  cbn [field_get fst snd]. destruct (nth_error data j) as [y|] eqn:Ey.
  - exists y. split; auto. clear - F E Ey. revert j E Ey. induction F; intros [|j] E Ey; cbn in *; try discriminate; [congruence|eauto].
  - apply nth_error_None in Ey. apply Forall2_length' in F. assert (j < length (map snd fs)) by (apply nth_error_Some; congruence). lia.
Qed.
Lemma accessor_out t (h : hold) r : U t -> accessor t h = Ok r -> U (snd r).
Proof.
  intros Ut H. unfold accessor in H. destruct t as [| | | | | |[n [vs|fs]]]; try discriminate.
  destruct (literal_str h) as [x| |]; try discriminate. cbn [rbind] in H. destruct (find_field x fs) as [[j t]|] eqn:E; [|discriminate].
  injection H as <-. apply fields_nth in E. destruct E as [_ [y Hy]]. eapply (u_fields U HU) with (k := 0); [exact Ut|reflexivity|exact Hy].
Qed.

Definition sound (op : ty -> list node -> res (step * ty)) : Prop :=
  forall (D : slots) in_ty args s t, U in_ty -> Forall (node_ok D) args -> Forall plain args -> op in_ty args = Ok (s, t) -> U t ->
  step_ok D in_ty s t D.

Lemma simple_sound tin sg out f : match tin with Some a => U a | None => True end -> Forall U (map snd sg) ->
  (forall v xs in_ty, is_a v in_ty -> match tin with Some a => in_ty = a | None => True end -> Forall2 is_a xs (map snd sg) ->
     U out -> behaves (fun x => is_a x out) (f v xs)) ->
  sound (simple tin sg out f).
Proof.
  intros Ut Us Hf D in_ty args s t Ui Hn Hp H Uo. eapply simple_ok; eauto. intros v xs Hv Hi Hxs. apply (Hf v xs in_ty); auto.
  unfold simple in H. destruct (match tin with Some t0 => assert_input t0 in_ty | None => Ok tt end); try discriminate. cbn [rbind] in H.
  destruct (take_args in_ty sg args); try discriminate. cbn [rbind] in H. injection H as _ <-. exact Uo.
Qed.

(** inverting what the arguments are *)
Ltac inv_args := repeat match goal with
  | H : Forall2 is_a ?xs (_ :: _) |- _ => is_var xs; inversion H; clear H; subst
  | H : Forall2 is_a ?xs [] |- _ => is_var xs; inversion H; clear H; subst
  end.
Ltac inv_val := repeat match goal with
  | H : is_a ?v TNum |- _ => is_var v; inversion H; clear H; subst
  | H : is_a ?v TStr |- _ => is_var v; inversion H; clear H; subst
  | H : is_a ?v TBool |- _ => is_var v; inversion H; clear H; subst
  end.
Ltac simple_op := apply simple_sound; [first [exact I|base]|repeat (constructor; [base|]); constructor|];
  intros v xs in_ty Hv Ein Hxs Uo; cbn [map snd fst] in Hxs; try subst in_ty; inv_args.

Lemma num1_sound f : sound (num1 f).
Proof. simple_op. inv_val. constructor. Qed.
Lemma num_test_sound f : sound (num_test f).
Proof. simple_op. inv_val. constructor. Qed.
Lemma root_sound f : sound (root f).
Proof. simple_op. inv_val. constructor. Qed.
Lemma len_str_sound : sound (@len_str_op W).
Proof. simple_op. inv_val. constructor. Qed.
Lemma as_tab_ok v : is_a v TTab -> exists t, v = VTab t /\ good t.
Proof. intro H. inversion H; subst. eexists. split; [reflexivity|]. apply is_tab_good. exact H. Qed.
Lemma as_row_ok v : is_a v TTabRow -> exists t i c, v = VTabRow t i c /\ good t /\ i < length t.
Proof. intro H. inversion H; subst. do 3 eexists. split; [reflexivity|]. apply is_row_good in H. exact H. Qed.
Lemma len_tab_sound c : sound (@len_tab_op W c).
Proof. simple_op. apply as_tab_ok in Hv. destruct Hv as (t & -> & G). constructor. Qed.

Lemma counted_str_sound f : (forall n s, is_a n TNum -> behaves (fun _ => True) (f n s)) -> sound (@counted W str TStr as_str VStr f).
Proof.
  intro Hf. simple_op. inversion Hv; subst. cbn [as_str rbind]. eapply behaves_rbind; [apply Hf; eassumption|]. intros a _ _. constructor.
Qed.
Lemma counted_tab_sound f : (forall n t, is_a n TNum -> good t -> behaves good (f n t)) -> sound (@counted W table TTab as_tab VTab f).
Proof.
  intro Hf. simple_op. apply as_tab_ok in Hv. destruct Hv as (t & -> & G). cbn [as_tab rbind].
  eapply behaves_rbind; [apply Hf; eassumption|]. intros a _ Ha. apply table_ok. exact Ha.
Qed.
Lemma nth_str_sound : sound (@nth_str_op W).
Proof. apply counted_str_sound. intros n s Hn. eapply behaves_rbind; [apply usize_ok; auto|]. intros k _ _. destruct (nthN k s); cbn; auto; lia. Qed.
Lemma take_str_sound : sound (@take_str_op W).
Proof. apply counted_str_sound. intros n s Hn. eapply behaves_rbind; [apply usize_ok; auto|]. intros k _ _. exact I. Qed.
Lemma skip_str_sound : sound (@skip_str_op W).
Proof. apply counted_str_sound. intros n s Hn. eapply behaves_rbind; [apply usize_ok; auto|]. intros k _ _. exact I. Qed.
Lemma take_tab_sound w : sound (@take_tab_op W w).
Proof.
  apply counted_tab_sound. intros n t Hn [R C]. assert (B : behaves (fun _ => True) (take_table w n t)).
  { unfold take_table. eapply behaves_rbind; [apply usize_ok; auto|]. intros k _ _. destruct w; exact I. }
  apply behaves_eq in B. eapply behaves_imp; [|exact B]. intros t' [E _]. split; [eapply take_rect; eauto|eapply take_cells; eauto].
Qed.
Lemma usize_succ_ok n : behaves (fun _ => True) (usize_succ false n).
Proof. unfold usize_succ. destruct (_ <? _)%N; exact I. Qed.
Lemma skip_tab_sound w : sound (@skip_tab_op W w).
Proof.
  apply counted_tab_sound. intros n t Hn [R C]. assert (B : behaves (fun _ => True) (skip_table false w n t)).
  { unfold skip_table. eapply behaves_rbind; [apply usize_ok; auto|]. intros k _ _. destruct w; [exact I|].
    eapply behaves_rbind; [apply usize_succ_ok|]. intros; exact I. }
  apply behaves_eq in B. eapply behaves_imp; [|exact B]. intros t' [E _]. split; [eapply skip_rect; eauto|eapply skip_cells; eauto].
Qed.
Lemma rev_str_sound : sound (@rev_str_op W).
Proof. simple_op. inv_val. constructor. Qed.
Lemma rev_tab_sound c : sound (@rev_tab_op W c).
Proof.
  simple_op. apply as_tab_ok in Hv. destruct Hv as (t & -> & [R C]). apply table_ok. split; [apply rev_rect; auto|apply rev_cells; auto].
Qed.
Lemma dedup_str_sound : sound (@dedup_str_op W).
Proof. simple_op. inv_val. constructor. Qed.
Lemma range_ok a b : is_a a TNum -> is_a b TNum -> behaves (fun x => is_a x TTab) (let? t := range a b in Ok (VTab t)).
Proof.
  intros Ha Hb. assert (B : behaves (fun _ => True) (range a b)).
  { unfold range. eapply behaves_rbind; [apply u128_ok; auto|]. intros x _ _. eapply behaves_rbind; [apply u128_ok; auto|]. intros; exact I. }
  apply behaves_eq in B. eapply behaves_rbind; [exact B|]. intros t _ [E _]. apply table_ok.
  split; [exact (@range_rect _ _ _ E)|]. apply (@range_cells good_val _ _ _ E). apply (good_str U HU).
Qed.
Lemma range_to_sound : sound (@range_to_op W).
Proof. simple_op. apply range_ok; auto. Qed.
Lemma range_sound : sound (@range_op W).
Proof. simple_op. apply range_ok; auto. Qed.

Lemma Forall2_all {A} (xs : list value) (l : list A) t : Forall2 is_a xs (map snd (map (fun _ => (true, t)) l)) -> Forall (fun x => is_a x t) xs.
Proof. revert l. induction xs as [|x xs IH]; intros [|y l] H; inversion H; subst; constructor; eauto. Qed.
Lemma table_sound : sound (@table_op W).
Proof.
  intros D in_ty args s t Ui Hn Hp H Ut. unfold table_op in H. revert H Ut. apply simple_sound; auto.
  { apply Forall_forall. intros u Hu. rewrite map_map in Hu. apply in_map_iff in Hu. destruct Hu as (? & <- & _). base. }
  intros v xs i Hv _ Hxs _. apply Forall2_all in Hxs.
  destruct (table_ctor_cells good_val xs) as (t' & E & C).
  { eapply Forall_impl; [|exact Hxs]. intros x Hx. eapply good_of; [|exact Hx]. base. }
  rewrite E. cbn [rbind behaves]. apply table_ok. split; auto. eapply table_ctor_rect; eauto.
Qed.

Lemma tuple_sound : sound (@tuple_op W).
Proof.
  intros D in_ty args s t Ui Hn Hp H Ut. unfold tuple_op in H. destruct (_ <? 2) eqn:El; [discriminate|].
  destruct (all_supplied in_ty args) as [hs| |] eqn:E; try discriminate. cbn [rbind] in H. injection H as <- <-.
  assert (F := all_supplied_ok W U HU Sg L D in_ty Ui _ _ Hn Hp E).
  set (sg := map (fun n => (true, n_out n)) args).
  replace (map (fun _ : node => true) args) with (map fst sg) by (unfold sg; rewrite map_map; reflexivity).
  apply gather_step_ok.
  - unfold sg. rewrite map_map. exact F.
  - intros v xs Hv Hxs. cbn [behaves]. destruct (tuple_fields (map (@n_out W) args)) as (n & En & M).
    apply is_data with (fs := combine (map tfield (seq 0 (length (map (@n_out W) args)))) (map (@n_out W) args)).
    + rewrite En. reflexivity.
    + rewrite M. unfold sg in Hxs. rewrite map_map in Hxs. exact Hxs.
Qed.
Lemma init_sound d k : sound (init_op d k).
Proof.
  intros D in_ty args s t Ui Hn Hp H Ut. unfold init_op in H. destruct (variant_fields d k) as [fs|] eqn:E; [|discriminate].
  assert (t = TDef d).
  { unfold simple in H. cbn [rbind] in H. destruct (take_args _ _ _); try discriminate. cbn [rbind] in H. injection H as _ <-. reflexivity. }
  subst t. refine (simple_ok W U HU Sg L D None _ _ _ in_ty args s (TDef d) Ui Hn Hp _ I _ H).
  - apply Forall_forall. intros u Hu. rewrite map_map in Hu. apply in_map_iff in Hu. destruct Hu as ([x u'] & <- & Hin).
    eapply (u_fields U HU); eauto.
  - intros v xs Hv _ Hxs. apply is_data with (fs := fs); auto. rewrite map_map in Hxs. exact Hxs.
Qed.

Lemma in_sound : sound (@in_op W).
Proof.
  intros D in_ty args s t Ui Hn Hp H Ut. unfold in_op in H. destruct args as [|n [|? ?]]; try discriminate.
  inversion Hn as [|? ? Hn0 _]; inversion Hp as [|? ? Hp0 _]; subst. step_arg.
  destruct (concrete n) as [h| |] eqn:E3; try discriminate. cbn [rbind] in H. injection H as <- <-.
  apply arg_concrete with (D := D) in E3; auto. rewrite Ei in E3.
  apply op_ok with (args := [Sig in_ty (n_out n) D]); [repeat constructor; exact E3|]. intros v Hv.
  exists (Sig in_ty (n_out n) D). split; [reflexivity|]. split; [refl_within|]. split; [exact Hv|]. intros x Hx. split; [exact Hx|refl_within].
Qed.
Lemma get_sound : sound (@get_op W).
Proof.
  intros D in_ty args s t Ui Hn Hp H Ut. unfold get_op in H. destruct args as [|n [|? ?]]; try discriminate.
  inversion Hn as [|? ? Hn0 _]; inversion Hp as [|? ? Hp0 _]; subst. step_arg.
  destruct (concrete n) as [h| |] eqn:E3; try discriminate. cbn [rbind] in H.
  destruct (accessor in_ty h) as [r| |] eqn:Er; try discriminate. cbn [rbind] in H. injection H as <- <-.
  apply op_ok with (args := []); [constructor|]. intros v Hv. destruct (accessor_ok _ _ _ Er v Hv) as (x & E & Hx). rewrite E.
  cbn [try]. split; [exact Hx|refl_within].
Qed.
Lemma get_row_sound out : sound (@get_row_op W out).
Proof.
  simple_op. apply as_row_ok in Hv. destruct Hv as (t & i & c & -> & G & Hi). cbn [as_row rbind fst snd].
  eapply behaves_rbind; [apply row_lookup_ok; eauto|]. intros e _ He. apply cnv_ok; auto.
Qed.
Lemma get_default_sound : sound (@get_default_op W).
Proof.
  intros D in_ty args s t Ui Hn Hp H Ut. unfold get_default_op in H. open_input H Ui. destruct args as [|c [|d [|? ?]]]; try discriminate.
  inversion Hn as [|? ? Hn0 Hn']; inversion Hn' as [|? ? Hn1 _]; inversion Hp as [|? ? Hp0 Hp']; inversion Hp' as [|? ? Hp1 _]; subst.
  step_arg. step_arg. destruct (concrete c) as [hc| |] eqn:E3; try discriminate. cbn [rbind] in H.
  step_arg. destruct (concrete d) as [hd| |] eqn:E4; try discriminate. cbn [rbind] in H. injection H as <- <-.
  apply arg_concrete with (D := D) in E3; auto. rewrite Ei, Eo in E3. apply arg_concrete with (D := D) in E4; auto. rewrite Ei0 in E4.
  apply op_ok with (args := [Sig TNil TStr D; Sig TNil (n_out d) D]); [repeat constructor; auto|]. intros v Hv.
  apply as_row_ok in Hv. destruct Hv as (t & i & q & -> & G & Hi). cbn [as_row try fst snd].
  exists (Sig TNil TStr D). split; [reflexivity|]. split; [refl_within|]. split; [constructor|]. intros x Hx.
  eapply act_try; [apply row_lookup_ok; eauto|]. intros e He. apply ent_good in He. destruct He as [Uv Hv].
  destruct (ty_eqb _ _) eqn:Et.
  - apply (U_eq U HU) in Et; auto. rewrite <- Et. split; [exact Hv|refl_within].
  - exists (Sig TNil (n_out d) D). split; [reflexivity|]. split; [refl_within|]. split; [constructor|]. intros y Hy. split; [exact Hy|refl_within].
Qed.
Lemma dot_sound out : sound (@dot_op W out).
Proof.
  intros D in_ty args s t Ui Hn Hp H Ut. unfold dot_op in H. destruct args as [|n [|f [|? ?]]]; try discriminate.
  inversion Hn as [|? ? Hn0 Hn']; inversion Hn' as [|? ? Hn1 _]; inversion Hp as [|? ? Hp0 Hp']; inversion Hp' as [|? ? Hp1 _]; subst.
  step_arg. destruct (concrete n) as [h| |] eqn:E3; try discriminate. cbn [rbind] in H. step_arg.
  apply arg_concrete with (D := D) in E3; auto. rewrite Ei in E3.
  assert (C : (n_out n = TTabRow /\ (let? f := returns TStr f in let? hf := concrete f in Ok (dot_row_step out [h; hf], out)) = Ok (s, t)) \/
              (let? hf := concrete f in let? r := accessor (n_out n) hf in Ok (dot_step h (fst r), snd r)) = Ok (s, t)).
  { destruct (n_out n); auto. }
  clear H. destruct C as [[Et H]|H].
  - step_arg. destruct (concrete f) as [hf| |] eqn:E4; try discriminate. cbn [rbind] in H. injection H as <- <-.
    apply arg_concrete with (D := D) in E4; auto. rewrite Ei0, Eo in E4. rewrite Et in E3.
    apply op_ok with (args := [Sig in_ty TTabRow D; Sig TNil TStr D]); [repeat constructor; auto|]. intros v Hv.
    exists (Sig in_ty TTabRow D). split; [reflexivity|]. split; [refl_within|]. split; [exact Hv|]. intros r Hr.
    apply as_row_ok in Hr. destruct Hr as (tb & i & q & -> & G & Hi). cbn [as_row try fst snd].
    exists (Sig TNil TStr D). split; [reflexivity|]. split; [refl_within|]. split; [constructor|]. intros x Hx.
    eapply act_try; [apply row_lookup_ok; eauto|]. intros e He. eapply act_try; [apply cnv_ok; eauto|]. intros y Hy. split; [exact Hy|refl_within].
  - destruct (concrete f) as [hf| |] eqn:E4; try discriminate. cbn [rbind] in H.
    destruct (accessor (n_out n) hf) as [r| |] eqn:Er; try discriminate. cbn [rbind] in H. injection H as <- <-.
    apply op_ok with (args := [Sig in_ty (n_out n) D]); [repeat constructor; auto|]. intros v Hv.
    exists (Sig in_ty (n_out n) D). split; [reflexivity|]. split; [refl_within|]. split; [exact Hv|]. intros x Hx.
    destruct (accessor_ok _ _ _ Er x Hx) as (y & E & Hy). rewrite E. cbn [try]. split; [exact Hy|refl_within].
Qed.

Lemma nth_tab_sound : sound (@nth_tab_op W).
Proof.
  intros D in_ty args s t Ui Hn Hp H Ut. unfold nth_tab_op in H. open_input H Ui. destruct args as [|n [|e [|? ?]]]; try discriminate.
  inversion Hn as [|? ? Hn0 Hn']; inversion Hn' as [|? ? Hn1 _]; inversion Hp as [|? ? Hp0 Hp']; inversion Hp' as [|? ? Hp1 _]; subst.
  step_arg. step_arg. destruct (concrete n) as [hn| |] eqn:E3; try discriminate. cbn [rbind] in H. step_arg.
  destruct (concrete e) as [he| |] eqn:E4; try discriminate. cbn [rbind] in H. injection H as <- <-.
  apply arg_concrete with (D := D) in E3; auto. rewrite Ei, Eo in E3. apply arg_concrete with (D := D) in E4; auto. rewrite Ei0 in E4.
  apply op_ok with (args := [Sig TTab TNum D; Sig TTabRow (n_out e) D]); [repeat constructor; auto|]. intros v Hv.
  exists (Sig TTab TNum D). split; [reflexivity|]. split; [refl_within|]. split; [exact Hv|]. intros x Hx.
  eapply act_try; [apply usize_ok; auto|]. intros k _. apply as_tab_ok in Hv. destruct Hv as (tb & -> & G). cbn [as_tab try].
  eapply act_try; [apply usize_succ_ok|]. intros k1 _. destruct (_ <=? _)%N eqn:El; [cbn; lia|]. apply N.leb_gt in El.
  exists (Sig TTabRow (n_out e) D). split; [reflexivity|]. split; [refl_within|]. split; [apply row_ok'; auto; unfold rows_len in El; lia|].
  intros y Hy. split; [exact Hy|refl_within].
Qed.

Lemma bools_ok xs : Forall (fun x => is_a x TBool) xs -> exists bs, rmapM as_bool xs = Ok bs /\ length bs = length xs.
Proof.
  induction 1 as [|x xs Hx F (bs & E & El)]; cbn; [eauto|]. inversion Hx; subst. cbn. rewrite E. cbn. eexists. split; [reflexivity|]. cbn. lia.
Qed.
Lemma filter_tab_sound : sound (@filter_tab_op W).
Proof.
  intros D in_ty args s t Ui Hn Hp H Ut. unfold filter_tab_op in H. open_input H Ui. destruct args as [|n [|? ?]]; try discriminate.
  inversion Hn as [|? ? Hn0 _]; inversion Hp as [|? ? Hp0 _]; subst. step_arg. step_arg.
  destruct (concrete n) as [h| |] eqn:E3; try discriminate. cbn [rbind] in H. injection H as <- <-.
  apply arg_concrete with (D := D) in E3; auto. rewrite Ei, Eo in E3.
  apply op_ok with (args := [Sig TTabRow TBool D]); [repeat constructor; auto|]. intros v Hv.
  apply as_tab_ok in Hv. destruct Hv as (tb & -> & G). cbn [as_tab try].
  destruct tb as [|hd tb].
  - cbn. split; [apply table_ok; auto|refl_within].
  - eapply over_rows_ok; [reflexivity|refl_within|exact G|cbn; lia|constructor|]. intros xs Hxs Hl. cbn in Hl.
    destruct (bools_ok _ Hxs) as (bs & E & Eb). rewrite E. cbn [try].
    assert (B : behaves (fun _ => True) (retain_keep_rows false (hd :: tb) (true :: bs))).
    { unfold retain_keep_rows. destruct (forallb _ _); [exact I|]. replace (_ <? _) with false; [exact I|]. symmetry. apply Nat.ltb_ge. cbn. lia. }
    apply behaves_eq in B. eapply act_try; [exact B|]. intros t' [E' _]. split; [|refl_within]. apply table_ok. destruct G as [R C].
    split; [eapply retain_keep_rect; eauto|eapply retain_keep_cells; eauto].
Qed.

Lemma append_loop_ok (D : slots) t args : good t -> forall names a cols, (forall j, j < length names -> exists o, nth_error args (a + j) = Some (Sig TTabRow o D) /\ U o) ->
  Forall (row_ok good_val) cols -> act_ok args [] TTab D D (append_loop W t names a cols).
Proof.
  intros G. induction names as [|x names IH]; intros a cols Ha Hc; cbn [append_loop].
  - split; [|refl_within]. apply table_ok. destruct G as [R C]. split; [apply add_cols_rect; auto|apply add_cols_cells; auto]. apply Forall_rev. auto.
  - destruct (Ha 0) as (o & E & Uo); [cbn; lia|]. rewrite Nat.add_0_r in E.
    assert (Next : forall xs, Forall (fun x => is_a x o) xs -> act_ok args [] TTab D D (append_loop W t names (S a) (column_of (rows_len t) x xs :: cols))).
    { intros xs Hxs. apply IH.
      - intros j Hj. destruct (Ha (S j)) as (o' & E' & Uo'); [cbn; lia|]. exists o'. rewrite <- E'. split; auto. f_equal. lia.
      - constructor; auto. unfold column_of. destruct (rows_len t); [constructor|]. constructor; [apply (good_str U HU)|].
        apply Forall_map. eapply Forall_impl; [|exact Hxs]. intros y Hy. apply val_ent_ok. eapply good_of; eauto. }
    destruct t as [|hd tb].
    + apply Next. constructor.
    + eapply over_rows_ok; [exact E|refl_within|exact G|cbn; lia|constructor|]. intros xs Hxs _. apply Next. exact Hxs.
Qed.
Lemma append_names_len n : forall flags i, length (append_names n flags i) = n.
Proof. induction n as [|n IH]; intros [|f flags] i; cbn; auto. Qed.
Lemma append_sound flags : sound (@append_op W flags).
Proof.
  intros D in_ty args s t Ui Hn Hp H Ut. unfold append_op in H. open_input H Ui.
  assert (C : (let? hs := all_supplied TTabRow args in Ok (append_step (append_names (length args) flags 1) hs, TTab)) = Ok (s, t)).
  { destruct args; [discriminate|exact H]. }
  clear H. destruct (all_supplied TTabRow args) as [hs| |] eqn:E; try discriminate. cbn [rbind] in C. injection C as <- <-.
  assert (F := all_supplied_ok W U HU Sg L D TTabRow ltac:(base) _ _ Hn Hp E).
  eapply op_ok; [exact F|]. intros v Hv. apply as_tab_ok in Hv. destruct Hv as (tb & -> & G). cbn [as_tab try].
  apply append_loop_ok; auto. intros j Hj. rewrite append_names_len in Hj. cbn [Nat.add]. rewrite nth_error_map.
  destruct (nth_error args j) as [n|] eqn:En; [|apply nth_error_None in En; lia]. exists (n_out n). split; [reflexivity|].
  apply nth_error_In in En. rewrite Forall_forall in Hn. apply (arg_out D). auto.
Qed.
Lemma append_row_sound : sound (@append_row_op W).
Proof.
  intros D in_ty args s t Ui Hn Hp H Ut. unfold append_row_op in H. open_input H Ui.
  destruct (all_supplied TTab args) as [hs| |] eqn:E; try discriminate. cbn [rbind] in H. injection H as <- <-.
  assert (F := all_supplied_ok W U HU Sg L D TTab Ui _ _ Hn Hp E).
  set (sg := map (fun n => (true, n_out n)) args).
  replace (map (fun _ : node => true) args) with (map fst sg) by (unfold sg; rewrite map_map; reflexivity).
  apply gather_step_ok.
  - unfold sg. rewrite map_map. exact F.
  - intros v xs Hv Hxs. apply as_tab_ok in Hv. destruct Hv as (tb & -> & [R C]). cbn [as_tab rbind].
    destruct (append_row_cells good_val xs tb) as (t' & E' & C'); auto.
    + unfold sg in Hxs. rewrite map_map in Hxs. cbn [snd] in Hxs. clear - Hn Hxs. revert xs Hxs.
      induction Hn as [|n args Hn0 Hn IH]; intros xs Hxs; inversion Hxs; subst; constructor; auto. eapply good_of; [|eassumption]. eapply arg_out; eauto.
    + apply (good_str U HU).
    + rewrite E'. cbn [rbind behaves]. apply table_ok. split; auto. eapply append_row_rect; eauto.
Qed.

(** *** logic *)
Lemma and_sound : sound (@and_intrinsic W).
Proof. intros D in_ty args s t Ui Hn Hp H _. refine (agnostic_ok W U HU Sg L bool TBool as_bool VBool _ _ _ _ D in_ty args s t Ui Hn Hp H); [apply from_bool|constructor|base]. Qed.
Lemma or_sound : sound (@or_intrinsic W).
Proof. intros D in_ty args s t Ui Hn Hp H _. refine (agnostic_ok W U HU Sg L bool TBool as_bool VBool _ _ _ _ D in_ty args s t Ui Hn Hp H); [apply from_bool|constructor|base]. Qed.
Lemma nums_sound agg : sound (@variadic_constrained W Z TNum as_num VNum agg).
Proof. intros D in_ty args s t Ui Hn Hp H _. refine (constrained_ok W U HU Sg L Z TNum as_num VNum _ _ _ _ D in_ty args s t Ui Hn Hp H); [apply from_num|constructor|base]. Qed.
Lemma strs_sound agg : sound (@variadic_constrained W str TStr as_str VStr agg).
Proof. intros D in_ty args s t Ui Hn Hp H _. refine (constrained_ok W U HU Sg L str TStr as_str VStr _ _ _ _ D in_ty args s t Ui Hn Hp H); [apply from_str|constructor|base]. Qed.
Lemma not_sound : sound (@not_intrinsic W).
Proof.
  intros D in_ty args s t Ui Hn Hp H _. unfold not_intrinsic in H. open_input H Ui. destruct args; try discriminate. injection H as <- <-.
  apply op_ok with (args := []); [constructor|]. intros v Hv. inversion Hv; subst. split; [constructor|refl_within].
Qed.
Lemma cmp_sound : sound (@cmp_intrinsic W).
Proof.
  intros D in_ty args s t Ui Hn Hp H _. unfold cmp_intrinsic in H. destruct (compare_arg in_ty args) as [h| |] eqn:E; try discriminate.
  cbn [rbind] in H. destruct (cmp_step in_ty h) as [s'| |] eqn:Es; try discriminate. cbn [rbind] in H. injection H as <- <-.
  eapply compare_arg_ok in E; eauto. assert (C := cmp_comparable W U HU _ _ _ Ui Es).
  destruct (@cmp_right W in_ty C h) as (s2 & E2 & R). rewrite Es in E2. injection E2 as <-. eapply right_ok; eauto.
  intros [| |]; (apply is_data with (fs := []); [reflexivity|constructor]).
Qed.
Lemma eq_sound : sound (@eq_intrinsic W).
Proof.
  intros D in_ty args s t Ui Hn Hp H _. unfold eq_intrinsic in H. destruct (compare_arg in_ty args) as [h| |] eqn:E; try discriminate.
  cbn [rbind] in H. destruct (eq_step in_ty h) as [s'| |] eqn:Es; try discriminate. cbn [rbind] in H. injection H as <- <-.
  eapply compare_arg_ok in E; eauto. assert (C := eq_comparable W U HU _ _ _ Ui Es).
  destruct (@eq_right W in_ty C h) as (s2 & E2 & R). rewrite Es in E2. injection E2 as <-. eapply right_ok; eauto.
  intros c. constructor.
Qed.

(** the arguments of [if] *)
Lemma if_args_ok (D : slots) in_ty : U in_ty -> forall k args hs ts t, length args <= k -> Forall (node_ok D) args -> Forall plain args ->
  if_args in_ty args = Ok (hs, ts, t) -> U t /\ Forall U ts /\
  good_holds hs (flat_map (fun u => [Sig in_ty TBool D; Sig in_ty u D]) ts ++ [Sig in_ty t D]).
Proof.
  intros Ui. induction k as [|k IH]; intros [|p [|n args]] hs ts t Hl Hn Hp H; cbn [length] in Hl; try lia; cbn [if_args] in H; try discriminate.
  - inversion Hn as [|? ? Hn0 _]; inversion Hp as [|? ? Hp0 _]; subst. step_arg.
    destruct (concrete p) as [h| |] eqn:E3; try discriminate. cbn [rbind] in H. injection H as <- <- <-.
    apply arg_concrete with (D := D) in E3; auto. rewrite Ei in E3. split; [eapply arg_out; eauto|]. split; [constructor|].
    repeat constructor. exact E3.
  - inversion Hn as [|? ? Hn0 Hn']; inversion Hn' as [|? ? Hn1 Hns]; inversion Hp as [|? ? Hp0 Hp']; inversion Hp' as [|? ? Hp1 Hps]; subst.
    step_arg. step_arg. destruct (concrete p) as [hp| |] eqn:E3; try discriminate. cbn [rbind] in H. step_arg.
    destruct (concrete n) as [h| |] eqn:E4; try discriminate. cbn [rbind] in H.
    destruct (if_args in_ty args) as [[[hs' ts'] t']| |] eqn:E5; try discriminate. cbn [rbind] in H. injection H as <- <- <-.
    apply arg_concrete with (D := D) in E3; auto. rewrite Ei, Eo in E3. apply arg_concrete with (D := D) in E4; auto. rewrite Ei0 in E4.
    cbn in Hl. destruct (IH args hs' ts' t' ltac:(lia) Hns Hps E5) as (Ut & Uts & F).
    split; [exact Ut|]. split; [constructor; auto; eapply arg_out; eauto|]. cbn [flat_map app]. repeat (constructor; [assumption|]). exact F.
Qed.
Lemma if_loop_ok (D : slots) in_ty t v args : is_a v in_ty -> forall k i,
  (forall j, j < k -> nth_error args (i + 2 * j) = Some (Sig in_ty TBool D) /\ nth_error args (i + 2 * j + 1) = Some (Sig in_ty t D)) ->
  nth_error args (i + 2 * k) = Some (Sig in_ty t D) -> act_ok args [] t D D (if_loop W k i v).
Proof.
  intros Hv. induction k as [|k IH]; intros i Ha Hl; cbn [if_loop].
  - exists (Sig in_ty t D). split; [rewrite <- Hl; f_equal; lia|]. split; [refl_within|]. split; [exact Hv|]. intros x Hx. split; [exact Hx|refl_within].
  - destruct (Ha 0 ltac:(lia)) as [A1 A2]. exists (Sig in_ty TBool D). split; [rewrite <- A1; f_equal; lia|]. split; [refl_within|]. split; [exact Hv|].
    intros x Hx. inversion Hx; subst. cbn [as_bool try]. destruct b.
    + exists (Sig in_ty t D). split; [rewrite <- A2; f_equal; lia|]. split; [refl_within|]. split; [exact Hv|]. intros y Hy. split; [exact Hy|refl_within].
    + apply IH.
      * intros j Hj. destruct (Ha (S j) ltac:(lia)) as [B1 B2]. split; [rewrite <- B1|rewrite <- B2]; f_equal; lia.
      * rewrite <- Hl. f_equal. lia.
Qed.
Lemma if_sound : sound (@if_intrinsic W).
Proof.
  intros D in_ty args s t Ui Hn Hp H _. unfold if_intrinsic in H. destruct (Nat.even _); [discriminate|].
  destruct (if_args in_ty args) as [[[hs ts] t']| |] eqn:E; try discriminate. cbn [rbind] in H.
  destruct (forallb _ ts) eqn:Ef; [|discriminate]. injection H as <- <-.
  destruct (if_args_ok D in_ty Ui _ _ _ _ _ (le_n _) Hn Hp E) as (Ut & Uts & F).
  assert (Eq : Forall (fun u => u = t') ts).
  { rewrite forallb_forall in Ef. rewrite Forall_forall in Uts |- *. intros u Hu. symmetry. apply (U_eq U HU); auto. }
  eapply op_ok; [exact F|]. intros v Hv. eapply if_loop_ok; [exact Hv| |]; clear - Eq; induction Eq as [|u ts -> F IH]; cbn [length flat_map app].
  - intros j Hj. lia.
  - intros [|j] Hj; [split; reflexivity|]. destruct (IH j ltac:(lia)) as [H1 H2].
    replace (0 + 2 * S j) with (S (S (0 + 2 * j))) by lia. replace (S (S (0 + 2 * j)) + 1) with (S (S (0 + 2 * j + 1))) by lia. split; [exact H1|exact H2].
  - reflexivity.
  - replace (0 + 2 * S (length ts)) with (S (S (0 + 2 * length ts))) by lia. exact IH.
Qed.

(** *** fold *)
Lemma set_row (D : slots) args vars tout i n t j k r : n_binder n = Some r -> node_ok D n -> nth_error vars i = Some r -> good t -> j < length t ->
  (forall D1 : slots, within (with_row W n D) D1 -> within D D1 -> act_ok args vars tout D D1 k) ->
  forall D0 : slots, within D D0 -> act_ok args vars tout D D0 (SetVar i (VTabRow t j 0) k).
Proof.
  intros Hb (_ & _ & _ & Hs) Hv G Hj Hk D0 H0. cbn [act_ok]. rewrite Hv. destruct r as [s|].
  - destruct (Hs s Hb) as [Ls Es]. split; [exact Ls|]. split; [rewrite Es; apply row_ok'; auto|].
    apply Hk; unfold with_row; try rewrite Hb; intros x; [intros [->|Hx]; [left; reflexivity|right; auto]|right; auto].
  - apply Hk; auto. unfold with_row. rewrite Hb. exact H0.
Qed.
Lemma fold_act_ok (D : slots) t args vars (n : node) r : good t -> n_binder n = Some r -> node_ok D n -> nth_error vars 0 = Some r ->
  nth_error args 1 = Some (Sig (n_out n) (n_out n) (with_row W n D)) ->
  forall k i x (D0 : slots), within D D0 -> i + k <= length t -> is_a x (n_out n) -> act_ok args vars (n_out n) D D0 (fold_act W t k i x).
Proof.
  intros G Hb Hn Hv Ha. induction k as [|k IH]; intros i x D0 H0 Hi Hx; cbn [fold_act].
  - split; auto.
  - eapply set_row; eauto; [lia|]. intros D1 H1 H2. eexists. split; [exact Ha|]. split; [exact H1|]. split; [exact Hx|].
    intros y Hy. apply IH; auto. lia.
Qed.
Lemma fold_sound (D : slots) in_ty args s t : U in_ty -> Forall (node_ok D) args -> (forall n, nth_error args 0 = Some n -> plain n) ->
  fold_op in_ty args = Ok (s, t) -> step_ok D in_ty s t D.
Proof.
  intros Ui Hn Hp H. unfold fold_op in H. open_input H Ui. destruct args as [|n [|a [|? ?]]]; try discriminate.
  inversion Hn as [|? ? Hn0 Hn']; inversion Hn' as [|? ? Hn1 _]; subst. assert (Hp0 := Hp n eq_refl). assert (Un := arg_out _ _ Hn0).
  step_arg. destruct (concrete n) as [hn| |] eqn:E3; try discriminate. cbn [rbind] in H.
  destruct (row_slot a) as [r| |] eqn:Er; try discriminate. cbn [rbind] in H.
  assert (Hb : n_binder a = Some r). { unfold row_slot in Er. destruct (n_binder a); try discriminate. congruence. }
  step_arg. step_arg. destruct (concrete a) as [ha| |] eqn:E4; try discriminate. cbn [rbind] in H. injection H as <- <-.
  apply arg_concrete with (D := D) in E3; auto. rewrite Ei in E3. assert (K := concrete_ok W U HU Sg L D a ha Hn1 E4). rewrite Ei0, <- Eo in K.
  apply op_ok with (args := [Sig TNil (n_out n) D; Sig (n_out a) (n_out a) (with_row W a D)]); [repeat constructor; auto|]. intros v Hv.
  apply as_tab_ok in Hv. destruct Hv as (tb & -> & G). cbn [as_tab try].
  eexists. split; [reflexivity|]. split; [refl_within|]. split; [constructor|]. cbn [sg_out]. intros x Hx. rewrite <- Eo in Hx |- *.
  destruct tb as [|hd tb].
  - split; [exact Hx|refl_within].
  - eapply fold_act_ok; eauto; first [refl_within|cbn; lia].
Qed.
Lemma fold_while_act_ok (D : slots) t args vars (p n : node) rp r : good t -> n_binder p = Some rp -> node_ok D p -> n_binder n = Some r -> node_ok D n ->
  nth_error vars 0 = Some rp -> nth_error vars 1 = Some r ->
  nth_error args 1 = Some (Sig (n_out n) TBool (with_row W p D)) ->
  nth_error args 2 = Some (Sig (n_out n) (n_out n) (with_row W n D)) ->
  forall k i x (D0 : slots), within D D0 -> i + k <= length t -> is_a x (n_out n) -> act_ok args vars (n_out n) D D0 (fold_while_act W t k i x).
Proof.
  intros G Hbp Hp Hb Hn Hvp Hv Hap Ha. induction k as [|k IH]; intros i x D0 H0 Hi Hx; cbn [fold_while_act].
  - split; auto.
  - eapply set_row with (n := p); eauto; [lia|]. intros D1 H1 H2. eexists. split; [exact Hap|]. split; [exact H1|]. split; [exact Hx|].
    cbn [sg_out]. intros b Hbb. inversion Hbb; subst. cbn [as_bool try]. destruct b0; [|split; auto].
    eapply set_row with (n := n); eauto; [lia|]. intros D2 H3 H4. eexists. split; [exact Ha|]. split; [exact H3|]. split; [exact Hx|].
    intros y Hy. apply IH; auto. lia.
Qed.
Lemma fold_while_sound (D : slots) in_ty args s t : U in_ty -> Forall (node_ok D) args -> (forall n, nth_error args 0 = Some n -> plain n) ->
  fold_while_op in_ty args = Ok (s, t) -> step_ok D in_ty s t D.
Proof.
  intros Ui Hn Hp H. unfold fold_while_op in H. open_input H Ui. destruct args as [|n [|p [|a [|? ?]]]]; try discriminate.
  inversion Hn as [|? ? Hn0 Hn']; inversion Hn' as [|? ? Hn1 Hn'']; inversion Hn'' as [|? ? Hn2 _]; subst. assert (Hp0 := Hp n eq_refl).
  assert (Un := arg_out _ _ Hn0).
  step_arg. destruct (concrete n) as [hn| |] eqn:E3; try discriminate. cbn [rbind] in H.
  destruct (row_slot p) as [rp| |] eqn:Erp; try discriminate. cbn [rbind] in H.
  assert (Hbp : n_binder p = Some rp). { unfold row_slot in Erp. destruct (n_binder p); try discriminate. congruence. }
  step_arg. step_arg. destruct (concrete p) as [hp| |] eqn:E4; try discriminate. cbn [rbind] in H.
  destruct (row_slot a) as [r| |] eqn:Er; try discriminate. cbn [rbind] in H.
  assert (Hb : n_binder a = Some r). { unfold row_slot in Er. destruct (n_binder a); try discriminate. congruence. }
  step_arg. step_arg. destruct (concrete a) as [ha| |] eqn:E5; try discriminate. cbn [rbind] in H. injection H as <- <-.
  apply arg_concrete with (D := D) in E3; auto. rewrite Ei in E3.
  assert (K := concrete_ok W U HU Sg L D a ha Hn2 E5). assert (Kp := concrete_ok W U HU Sg L D p hp Hn1 E4). rewrite Ei0, Eo, <- Eo0 in Kp. rewrite Ei1, <- Eo0 in K.
  apply op_ok with (args := [Sig TNil (n_out n) D; Sig (n_out a) TBool (with_row W p D); Sig (n_out a) (n_out a) (with_row W a D)]); [repeat constructor; auto|].
  intros v Hv. apply as_tab_ok in Hv. destruct Hv as (tb & -> & G). cbn [as_tab try].
  eexists. split; [reflexivity|]. split; [refl_within|]. split; [constructor|]. cbn [sg_out]. intros x Hx. rewrite <- Eo0 in Hx |- *.
  destruct tb as [|hd tb].
  - split; [exact Hx|refl_within].
  - eapply fold_while_act_ok with (p := p); eauto; first [refl_within|cbn; lia].
Qed.
End SoundOps.
