(** Type soundness of further ops on tables and strings. *)
From Coq Require Import String List ZArith NArith Bool Lia.
From Verif Require Import Model.Base Model.Value Model.TableCrate Model.RowPar Model.TableOps Model.Tuple Model.Exec Model.Intrinsics
  Model.Compare Model.Typed Spec.TableSpec Spec.SortSpec Spec.TypeSpec Spec.ExecSpec Spec.CompareSpec Spec.TypingSpec Proofs.RegistryProofs
  Proofs.LinkProofs Proofs.ListLemmas Proofs.CompareProofs Proofs.TableBasics Proofs.RectProofs Proofs.TypedProofs Proofs.TypedTables
  Proofs.TypedTables2 Proofs.TypedOps Proofs.TypedSound.
Import ListNotations.

Section MoreOps.
Variable W : Type.
Variable U : ty -> Prop.
Hypothesis HU : universe U.
Variable Sg : nat -> ty.
Variable L : nat.
Local Notation step := (step W).
Local Notation hold := (hold W).
Local Notation node := (node W).
Local Notation is_a := (is_a U).
Local Notation hold_ok := (hold_ok W U Sg L).
Local Notation step_ok := (step_ok W U Sg L).
Local Notation act_ok := (act_ok W U Sg L).
Local Notation node_ok := (node_ok W U Sg L).
Local Notation plain := (plain W).
Local Notation good_holds := (Forall2 (fun h g => hold_ok (sg_env g) (sg_in g) h (sg_out g))).
Local Notation good_val := (good_val U).
Local Notation good := (good U).
Local Notation sound := (sound W U Sg L).
Local Notation arg_supplied := (arg_supplied W U HU Sg L).
Local Notation arg_returns := (arg_returns W U HU Sg L).
Local Notation arg_concrete := (arg_concrete W U HU Sg L).
Local Notation arg_out := (arg_out W U Sg L).
Local Notation as_tab_ok := (as_tab_ok U).
Local Notation table_ok := (table_ok U).

Ltac base := apply (U_base U HU); repeat (first [left; reflexivity|right]).
Ltac refl_within := intros ? Hwithin; exact Hwithin.
Ltac step_arg :=
  match goal with
  | H : context [supplied ?t ?n] |- _ =>
      let E := fresh "E" in let Ei := fresh "Ei" in
      destruct (supplied t n) as [?| |] eqn:E; try discriminate; cbn [rbind] in H;
      eapply arg_supplied in E; [destruct E as [-> Ei]| |eassumption]; [|try assumption; try base]
  | H : context [returns ?t ?n] |- _ =>
      let E := fresh "E" in let Ei := fresh "Eo" in
      destruct (returns t n) as [?| |] eqn:E; try discriminate; cbn [rbind] in H;
      eapply arg_returns in E; [destruct E as [-> Ei]| |eassumption]; [|try assumption; try base]
  end.
Ltac open_input H Ui :=
  match type of H with context [assert_input ?t ?i] =>
    let E := fresh "Ea" in destruct (assert_input t i) as [[]| |] eqn:E; try discriminate; cbn [rbind] in H;
    apply (input_ok U HU) in E; [|base|exact Ui]; subst i
  end.
Ltac two_args Hn Hp :=
  inversion Hn as [|? ? Hn0 Hn']; inversion Hn' as [|? ? Hn1 _]; inversion Hp as [|? ? Hp0 Hp']; inversion Hp' as [|? ? Hp1 _]; subst.
(** resolve an argument *)
Ltac resolve_arg := eexists; split; [reflexivity|]; split; [refl_within|]; split; [try constructor|]; cbn [sg_in sg_out].
Ltac finish := split; [|refl_within].

Lemma good_tab t : good t -> good_val (VTab t).
Proof. intro G. apply (good_of U _ TTab); [base|]. apply table_ok. exact G. Qed.
Lemma good_fine t : good t -> fine good_val t.
Proof. intro G. exact G. Qed.
Lemma good_str' s : good_val (VStr s).
Proof. apply (good_str U HU). Qed.

(** over the rows below the header *)
Lemma over_data_ok a t args vars tout D' (D : slots) out g cont :
  nth_error args a = Some (Sig TTabRow out g) -> within g D -> good t ->
  (forall xs, Forall (fun x => is_a x out) xs -> length xs = pred (length t) -> act_ok args vars tout D' D (cont xs)) ->
  act_ok args vars tout D' D (over_rows a t (pred (rows_len t)) 1 [] cont).
Proof.
  intros Ea Wi G Hc. destruct t as [|h d].
  - apply Hc; [constructor|reflexivity].
  - eapply over_rows_ok; [exact Ea|exact Wi|exact G|cbn; lia|constructor|exact Hc].
Qed.

(** *** names of columns *)
Lemma names_sig_U (args : list node) : Forall U (map snd (names_sig args)).
Proof. apply Forall_forall. intros u Hu. unfold names_sig in Hu. rewrite map_map in Hu. apply in_map_iff in Hu. destruct Hu as (? & <- & _). base. Qed.
Lemma names_act_ok forgive t args tout D' (D : slots) cont : (forall names, act_ok args [] tout D' D (cont names)) -> forall k i acc,
  (forall j, j < k -> nth_error args (i + j) = Some (Sig TNil TStr D)) ->
  act_ok args [] tout D' D (names_act forgive t k i acc cont).
Proof.
  intros Hc. induction k as [|k IH]; intros i acc Ha; cbn [names_act]; auto.
  exists (Sig TNil TStr D). split; [rewrite <- (Ha 0) by lia; f_equal; lia|]. split; [refl_within|]. split; [constructor|].
  intros x Hx. inversion Hx; subst. cbn [as_str try]. assert (K := col_idx_lt t s).
  assert (Next : act_ok args [] tout D' D (names_act forgive t k (S i) (s :: acc) cont)).
  { apply IH. intros j Hj. rewrite <- (Ha (S j)) by lia. f_equal. lia. }
  destruct (col_idx t s) as [j|e|]; cbn in K; auto. destruct forgive; auto.
Qed.
Lemma names_step_ok (D : slots) forgive (args : list node) hs (f : value -> res table) (g : list str -> table -> res table)
  (ok : table -> bool) : Forall (node_ok D) args -> Forall plain args ->
  take_args TTab (names_sig args) args = Ok hs ->
  (forall v t, v = VTab t -> good t -> forall names, behaves good (g names t)) ->
  step_ok D TTab (Op hs [] (fun v => try (as_tab v) (fun t => if ok t then Fail 20 else
     names_act forgive t (length hs) 0 [] (fun names => try (g names t) (fun t => Done (VTab t)))))) TTab D.
Proof.
  intros Hn Hp E Hg. assert (F := take_args_ok W U HU Sg L D TTab ltac:(base) _ _ _ Hn Hp (names_sig_U args) E).
  eapply op_ok; [exact F|]. intros v Hv. apply as_tab_ok in Hv. destruct Hv as (t & -> & G). cbn [as_tab try]. destruct (ok t); [cbn; lia|].
  apply names_act_ok.
  - intro names. eapply act_try; [eapply Hg; eauto|]. intros t' Ht. finish. apply table_ok. exact Ht.
  - intros j Hj. apply Forall2_length' in F. rewrite F in Hj. cbn [Nat.add]. rewrite map_length in Hj. unfold names_sig in *. rewrite map_length in Hj.
    rewrite map_map, nth_error_map. destruct (nth_error args j) eqn:En; [reflexivity|]. apply nth_error_None in En. lia.
Qed.
Lemma by_names_sound forgive g : (forall names t, good t -> behaves good (g names t)) -> sound (@by_names W forgive g).
Proof.
  intros Hg D in_ty args s t Ui Hn Hp H Ut. unfold by_names in H. open_input H Ui.
  destruct (take_args TTab (names_sig args) args) as [hs| |] eqn:E; try discriminate. cbn [rbind] in H. injection H as <- <-.
  apply (names_step_ok D forgive args hs (fun _ => Ok []) g (fun _ => false)); auto.
Qed.
Lemma some_names_sound op : sound op -> sound (fun in_ty => some_names (op in_ty)).
Proof. intros S D in_ty args s t Ui Hn Hp H Ut. unfold some_names in H. destruct args; [discriminate|]. eapply S; eauto. Qed.
Lemma dedup_tab_sound : sound (@dedup_tab_op W).
Proof. apply by_names_sound. intros names t G. apply (dedup_fine good_val). exact G. Qed.
Lemma sort_sound so : sort_contract so -> sound (@sort_op W so).
Proof. intro S. apply some_names_sound. apply by_names_sound. intros names t G. apply (sort_fine good_val); auto. Qed.
Lemma pick_sound add trail : sound (@pick_op W add trail).
Proof. apply some_names_sound. apply by_names_sound. intros names t G. apply (pick_fine good_val); auto using good_str'. Qed.
Lemma grp_sound fmt : sound (@grp_op W fmt).
Proof.
  intros D in_ty args s t Ui Hn Hp H Ut. unfold grp_op in H. open_input H Ui.
  assert (K : exists hs, take_args TTab (names_sig args) args = Ok hs /\ t = TTab /\
    s = Op hs [] (fun v => try (as_tab v) (fun t => if is_empty t then Fail 20 else
               names_act false t (length hs) 0 [] (fun names => try (grp_table fmt names t) (fun t => Done (VTab t)))))).
  { destruct args; [discriminate|]. destruct (take_args TTab _ _) as [hs| |]; try discriminate. cbn [rbind] in H. injection H as <- <-. eauto. }
  destruct K as (hs & E & -> & ->). apply (names_step_ok D false args hs (fun _ => Ok []) (grp_table fmt) is_empty); auto.
  intros v t _ G names. apply (grp_fine good_val); auto using good_str', good_tab.
Qed.

(** *** filters *)
Lemma flagged_ok (D : slots) flag n n' : node_ok D n -> flagged flag n = Ok n' -> n' = n.
Proof.
  unfold flagged. destruct flag as [t|]; [|congruence]. intros _ H. unfold supplied in H. destruct (ty_eqb _ _); [|discriminate]. congruence.
Qed.
Lemma filter_col_act_ok (D : slots) exp name t args cont : U exp -> nth_error args 1 = Some (Sig exp TBool D) -> good t ->
  (forall keep, length keep = pred (length t) -> act_ok args [] TTab D D (cont keep)) ->
  forall k i acc, i + k <= length t -> length acc + k = pred (length t) -> act_ok args [] TTab D D (filter_col_act exp name t k i acc cont).
Proof.
  intros Ue Ha G Hc. induction k as [|k IH]; intros i acc Hi Hl; cbn [filter_col_act].
  - apply Hc. rewrite rev_length. lia.
  - eapply act_try with (P := ent_ok good_val).
    { assert (K := row_lookup_ok U t i (VStr name) G ltac:(lia) ltac:(constructor)). exact K. }
    intros e He. assert (K := cnv_ok U HU e exp Ue He). destruct (cnv_value e exp) as [v|n|]; cbn in K; [| |destruct K].
    + exists (Sig exp TBool D). split; [exact Ha|]. split; [refl_within|]. split; [exact K|]. intros b Hb. inversion Hb; subst. cbn [as_bool try].
      apply IH; cbn; lia.
    + apply IH; cbn; lia.
Qed.
Lemma filter_col_sound flag : sound (@filter_col_op W flag).
Proof.
  intros D in_ty args s t Ui Hn Hp H Ut. unfold filter_col_op in H. open_input H Ui. destruct args as [|c [|p [|? ?]]]; try discriminate.
  two_args Hn Hp. step_arg. step_arg. destruct (concrete c) as [hc| |] eqn:E3; try discriminate. cbn [rbind] in H.
  destruct (flagged flag p) as [p'| |] eqn:Ef; try discriminate. cbn [rbind] in H. apply flagged_ok with (D := D) in Ef; auto. subst p'. step_arg.
  destruct (concrete p) as [hp| |] eqn:E4; try discriminate. cbn [rbind] in H. injection H as <- <-.
  apply arg_concrete with (D := D) in E3; auto. rewrite Ei, Eo in E3. apply arg_concrete with (D := D) in E4; auto. rewrite Eo0 in E4.
  apply op_ok with (args := [Sig TNil TStr D; Sig (n_in p) TBool D]); [repeat constructor; auto|]. intros v Hv.
  apply as_tab_ok in Hv. destruct Hv as (tb & -> & G). cbn [as_tab try]. resolve_arg. intros x Hx. inversion Hx; subst. cbn [as_str try].
  assert (Last : forall keep, length keep = pred (length tb) ->
    act_ok [Sig TNil TStr D; Sig (n_in p) TBool D] [] TTab D D (try (retain_keep_rows false tb (true :: keep)) (fun t => Done (VTab t)))).
  { intros keep Hk. assert (B : behaves (fun _ => True) (retain_keep_rows false tb (true :: keep))).
    { unfold retain_keep_rows. destruct (forallb _ _); [exact I|]. replace (_ <? _) with false; [exact I|]. symmetry. apply Nat.ltb_ge.
      cbn. unfold rows_len. lia. }
    apply behaves_eq in B. eapply act_try; [exact B|]. intros t' [E' _]. finish. apply table_ok. destruct G as [R C].
    split; [eapply retain_keep_rect; eauto|eapply retain_keep_cells; eauto]. }
  destruct tb as [|hd tb].
  - apply Last. reflexivity.
  - apply filter_col_act_ok; [apply Hn1|reflexivity|exact G|exact Last|cbn; lia|reflexivity].
Qed.
Lemma filter_cols_act_ok (D : slots) args : nth_error args 0 = Some (Sig TStr TBool D) -> forall n t, good t -> act_ok args [] TTab D D (filter_cols_act W n t).
Proof.
  intros Ha. induction n as [|n IH]; intros t G; cbn [filter_cols_act].
  - finish. apply table_ok. exact G.
  - eexists. split; [exact Ha|]. split; [refl_within|]. split; [constructor|]. cbn [sg_out]. intros b Hb. inversion Hb; subst. cbn [as_bool try].
    apply IH. destruct b0; auto. apply (remove_col_fine good_val). exact G.
Qed.
Lemma one_bool (D : slots) args hs : Forall (node_ok D) args -> Forall plain args -> take_args TStr [(true, TBool)] args = Ok hs ->
  good_holds hs [Sig TStr TBool D].
Proof. intros Hn Hp E. refine (take_args_ok W U HU Sg L D TStr _ [(true, TBool)] _ _ Hn Hp _ E); [base|repeat constructor; base]. Qed.
Lemma filter_cols_sound : sound (@filter_cols_op W).
Proof.
  intros D in_ty args s t Ui Hn Hp H Ut. unfold filter_cols_op in H. open_input H Ui.
  destruct (take_args TStr [(true, TBool)] args) as [hs| |] eqn:E; try discriminate. cbn [rbind] in H. injection H as <- <-.
  eapply op_ok; [eapply one_bool; eauto|]. intros v Hv. apply as_tab_ok in Hv. destruct Hv as (tb & -> & G). cbn [as_tab try].
  apply filter_cols_act_ok; auto.
Qed.
Lemma filter_str_act_ok (D : slots) args : nth_error args 0 = Some (Sig TStr TBool D) -> forall s acc, act_ok args [] TStr D D (filter_str_act W s acc).
Proof.
  intros Ha. induction s as [|c s IH]; intros acc; cbn [filter_str_act].
  - finish. constructor.
  - eexists. split; [exact Ha|]. split; [refl_within|]. split; [constructor|]. cbn [sg_out]. intros b Hb. inversion Hb; subst. cbn [as_bool try]. apply IH.
Qed.
Lemma filter_str_sound : sound (@filter_str_op W).
Proof.
  intros D in_ty args s t Ui Hn Hp H Ut. unfold filter_str_op in H. open_input H Ui.
  destruct (take_args TStr [(true, TBool)] args) as [hs| |] eqn:E; try discriminate. cbn [rbind] in H. injection H as <- <-.
  eapply op_ok; [eapply one_bool; eauto|]. intros v Hv. inversion Hv; subst. cbn [as_str try]. apply filter_str_act_ok; auto.
Qed.

(** *** map *)
Lemma entry_ok t i j : good t -> i < length t -> j < cols_len t -> behaves (ent_ok good_val) (entry_at t i j).
Proof.
  intros [R C] Hi Hj. unfold entry_at, get_cell. destruct (nth_error t i) as [r|] eqn:Er; [|apply nth_error_None in Er; lia].
  apply nth_error_In in Er. destruct (nth_error r j) as [e|] eqn:Ee.
  - cbn. apply nth_error_In in Ee. exact (proj1 (Forall_forall _ _) (proj1 (Forall_forall _ _) C r Er) e Ee).
  - apply nth_error_None in Ee. rewrite (rectangular_width R r Er) in Ee. lia.
Qed.
Lemma map_act_ok (D : slots) force exp j t args vars (n : node) r cont : U exp -> (force = true -> exp = TNil) -> good t -> j < cols_len t ->
  n_binder n = Some r -> node_ok D n -> nth_error vars 0 = Some r -> nth_error args 1 = Some (Sig exp (n_out n) (with_row W n D)) ->
  (forall vs (D0 : slots), within D D0 -> Forall good_val vs -> act_ok args vars TTab D D0 (cont vs)) ->
  forall k i acc (D0 : slots), within D D0 -> i + k <= length t -> Forall good_val acc -> act_ok args vars TTab D D0 (map_act force exp j t k i acc cont).
Proof.
  intros Ue Hf G Hj Hb Hn Hv Ha Hc. induction k as [|k IH]; intros i acc D0 H0 Hi Hacc; cbn [map_act].
  - apply Hc; auto. apply Forall_rev. exact Hacc.
  - eapply set_row; eauto; [lia|]. intros D1 H1 H2. eapply act_try with (P := fun v => is_a v exp).
    + destruct force; [rewrite Hf by reflexivity; cbn; constructor|]. eapply behaves_rbind; [apply entry_ok; auto; lia|].
      intros e _ He. apply cnv_ok; auto.
    + intros v Hv'. eexists. split; [exact Ha|]. split; [exact H1|]. split; [exact Hv'|]. cbn [sg_out]. intros y Hy. apply IH; auto; [lia|].
      constructor; auto. eapply good_of; [|exact Hy]. apply (arg_out D). exact Hn.
Qed.
Lemma map_sound force flag (D : slots) in_ty args s t : U in_ty -> Forall (node_ok D) args -> (forall n, nth_error args 0 = Some n -> plain n) ->
  map_op force flag in_ty args = Ok (s, t) -> step_ok D in_ty s t D.
Proof.
  intros Ui Hn Hp H. unfold map_op in H. open_input H Ui. destruct args as [|c [|f [|? ?]]]; try discriminate.
  inversion Hn as [|? ? Hn0 Hn']; inversion Hn' as [|? ? Hn1 _]; subst. assert (Hp0 := Hp c eq_refl).
  step_arg. step_arg. destruct (concrete c) as [hc| |] eqn:E3; try discriminate. cbn [rbind] in H.
  destruct (row_slot f) as [r| |] eqn:Er; try discriminate. cbn [rbind] in H.
  assert (Hb : n_binder f = Some r). { unfold row_slot in Er. destruct (n_binder f); try discriminate. congruence. }
  destruct (flagged (if force then Some TNil else flag) f) as [f'| |] eqn:Ef; try discriminate. cbn [rbind] in H.
  assert (Ff : force = true -> n_in f = TNil).
  { intros ->. cbn [flagged] in Ef. eapply arg_supplied in Ef; [apply Ef|base|exact Hn1]. }
  apply flagged_ok with (D := D) in Ef; auto. subst f'.
  destruct (concrete f) as [hf| |] eqn:E4; try discriminate. cbn [rbind] in H. injection H as <- <-.
  apply arg_concrete with (D := D) in E3; auto. rewrite Ei, Eo in E3. assert (K := concrete_ok W U HU Sg L D f hf Hn1 E4).
  apply op_ok with (args := [Sig TNil TStr D; Sig (n_in f) (n_out f) (with_row W f D)]); [repeat constructor; auto|]. intros v Hv.
  apply as_tab_ok in Hv. destruct Hv as (tb & -> & G). cbn [as_tab try]. resolve_arg. intros x Hx. inversion Hx; subst. cbn [as_str try].
  assert (Kc := col_idx_lt tb s). destruct (col_idx tb s) as [j|e|]; cbn [try]; cbn [behaves] in Kc; [|exact Kc|destruct Kc].
  assert (Last : forall vs (D0 : slots), within D D0 -> Forall good_val vs ->
    act_ok [Sig TNil TStr D; Sig (n_in f) (n_out f) (with_row W f D)] [r] TTab D D0 (Done (VTab (map_col j tb vs)))).
  { intros vs D0 H0 F. split; [|exact H0]. apply table_ok. destruct tb as [|h d]; [exact G|]. apply (zip_fine good_val); auto. }
  destruct tb as [|hd tb].
  - cbn in Kc. lia.
  - eapply map_act_ok with (n := f) (r := r); [apply Hn1|exact Ff|exact G|exact Kc|exact Hb|exact Hn1|reflexivity|reflexivity|exact Last|refl_within|cbn; lia|constructor].
Qed.

(** *** renaming *)
Lemma ren_args_ok (D : slots) : forall k args hs refs, length args <= k -> Forall (node_ok D) args -> Forall plain args -> ren_args args = Ok (hs, refs) ->
  good_holds hs (flat_map (fun idx : bool => [Sig TNil (if idx then TNum else TStr) D; Sig TNil TStr D]) refs).
Proof.
  induction k as [|k IH]; intros [|c [|n args]] hs refs Hl Hn Hp H; cbn [length] in Hl; try lia; cbn [ren_args] in H; try discriminate;
    try (injection H as <- <-; constructor).
  inversion Hn as [|? ? Hn0 Hn']; inversion Hn' as [|? ? Hn1 Hns]; inversion Hp as [|? ? Hp0 Hp']; inversion Hp' as [|? ? Hp1 Hps]; subst.
  step_arg. set (idx := ty_eqb (n_out c) TNum) in *. cbv zeta in H.
  assert (Uo : U (if idx then TNum else TStr)) by (destruct idx; base). step_arg.
  destruct (concrete c) as [hc| |] eqn:E3; try discriminate. cbn [rbind] in H. step_arg. step_arg.
  destruct (concrete n) as [hn| |] eqn:E4; try discriminate. cbn [rbind] in H.
  destruct (ren_args args) as [[hs' refs']| |] eqn:E5; try discriminate. cbn [rbind fst snd] in H. injection H as <- <-.
  apply arg_concrete with (D := D) in E3; auto. rewrite Ei, Eo in E3. apply arg_concrete with (D := D) in E4; auto. rewrite Ei0, Eo0 in E4.
  cbn [flat_map app]. repeat (constructor; [assumption|]). apply (IH args); auto. lia.
Qed.
Lemma ren_cols_ok (D : slots) t args cont : forall refs i acc,
  (forall j idx, nth_error refs j = Some idx -> nth_error args (i + 2 * j) = Some (Sig TNil (if idx : bool then TNum else TStr) D)) ->
  (forall idxs, length idxs = length acc + length refs -> act_ok args [] TTab D D (cont idxs)) -> act_ok args [] TTab D D (ren_cols t refs i acc cont).
Proof.
  induction refs as [|idx refs IH]; intros i acc Ha Hc; cbn [ren_cols].
  - apply Hc. rewrite rev_length. cbn. lia.
  - eexists. split; [rewrite <- (Ha 0 idx eq_refl); f_equal; lia|]. split; [refl_within|]. split; [constructor|]. cbn [sg_out]. intros x Hx.
    eapply act_try with (P := fun _ => True).
    + destruct idx; cbn [resolve_ref rbind]; [apply (usize_ok U); exact Hx|]. inversion Hx; subst. cbn [as_str rbind].
      assert (K := col_idx_lt t s). destruct (col_idx t s); cbn in *; auto.
    + intros n _. apply IH.
      * intros j b Hj. rewrite <- (Ha (S j) b Hj). f_equal. lia.
      * intros idxs Hl. apply Hc. rewrite Hl. cbn. lia.
Qed.
Lemma ren_names_ok (D : slots) args : forall idxs t i, good t -> (forall j, j < length idxs -> nth_error args (i + 2 * j) = Some (Sig TNil TStr D)) ->
  act_ok args [] TTab D D (ren_names W t idxs i).
Proof.
  induction idxs as [|n idxs IH]; intros t i G Ha; cbn [ren_names].
  - finish. apply table_ok. exact G.
  - destruct (_ <? _)%N; [|cbn; lia]. eexists. split; [rewrite <- (Ha 0) by (cbn; lia); f_equal; lia|]. split; [refl_within|]. split; [constructor|].
    cbn [sg_out]. intros x Hx. apply IH.
    + apply (set_cell_fine good_val); auto. apply val_ent_ok. eapply good_of; [|exact Hx]. base.
    + intros j Hj. rewrite <- (Ha (S j)) by (cbn; lia). f_equal. lia.
Qed.
Lemma nth_pairs {A B} (f g : A -> B) (l : list A) j a : nth_error l j = Some a ->
  nth_error (flat_map (fun x => [f x; g x]) l) (2 * j) = Some (f a) /\ nth_error (flat_map (fun x => [f x; g x]) l) (S (2 * j)) = Some (g a).
Proof.
  revert j. induction l as [|x l IH]; intros [|j] H; cbn [nth_error] in H; try discriminate.
  - injection H as ->. split; reflexivity.
  - replace (2 * S j) with (S (S (2 * j))) by lia. cbn [flat_map app nth_error]. apply IH. exact H.
Qed.
Lemma ren_sound : sound (@ren_op W).
Proof.
  intros D in_ty args s t Ui Hn Hp H Ut. unfold ren_op in H. open_input H Ui.
  destruct (ren_args args) as [[hs refs]| |] eqn:E; try discriminate. cbn [rbind fst snd] in H. injection H as <- <-.
  assert (F := ren_args_ok D _ args hs refs (le_n _) Hn Hp E).
  eapply op_ok; [exact F|]. intros v Hv. apply as_tab_ok in Hv. destruct Hv as (tb & -> & G). cbn [as_tab try].
  apply ren_cols_ok.
  - intros j idx Hj. cbn [Nat.add]. apply (nth_pairs (fun idx : bool => Sig TNil (if idx then TNum else TStr) D) (fun _ => Sig TNil TStr D)). exact Hj.
  - intros idxs Hl. cbn in Hl. apply ren_names_ok; auto. intros j Hj. cbn [Nat.add].
    destruct (nth_error refs j) as [b|] eqn:Eb; [|apply nth_error_None in Eb; lia].
    apply (nth_pairs (fun idx : bool => Sig TNil (if idx then TNum else TStr) D) (fun _ => Sig TNil TStr D) refs j b Eb).
Qed.
Lemma ren_with_act_ok (D : slots) exp args cont : U exp -> nth_error args 1 = Some (Sig exp TStr D) -> (forall hs, act_ok args [] TTab D D (cont hs)) ->
  forall r acc, row_ok good_val r -> act_ok args [] TTab D D (ren_with_act exp r acc cont).
Proof.
  intros Ue Ha Hc. induction r as [|e r IH]; intros acc Hr; cbn [ren_with_act]; auto. inversion Hr; subst.
  eapply act_try; [apply (cnv_ok U HU); eauto|]. intros v Hv. eexists. split; [exact Ha|]. split; [refl_within|]. split; [exact Hv|].
  cbn [sg_out]. intros x Hx. inversion Hx; subst. cbn [as_str try]. apply IH. assumption.
Qed.
Lemma ren_with_sound flag : sound (@ren_with_op W flag).
Proof.
  intros D in_ty args s t Ui Hn Hp H Ut. unfold ren_with_op in H. open_input H Ui. destruct args as [|i [|e [|? ?]]]; try discriminate.
  two_args Hn Hp. step_arg. step_arg. destruct (concrete i) as [hi| |] eqn:E3; try discriminate. cbn [rbind] in H.
  destruct (flagged flag e) as [e'| |] eqn:Ef; try discriminate. cbn [rbind] in H. apply flagged_ok with (D := D) in Ef; auto. subst e'. step_arg.
  destruct (concrete e) as [he| |] eqn:E4; try discriminate. cbn [rbind] in H. injection H as <- <-.
  apply arg_concrete with (D := D) in E3; auto. rewrite Ei, Eo in E3. apply arg_concrete with (D := D) in E4; auto. rewrite Eo0 in E4.
  apply op_ok with (args := [Sig TNil TNum D; Sig (n_in e) TStr D]); [repeat constructor; auto|]. intros v Hv. resolve_arg. intros x Hx.
  eapply act_try; [apply (usize_ok U); exact Hx|]. intros n _. apply as_tab_ok in Hv. destruct Hv as (tb & -> & G). cbn [as_tab try].
  destruct tb as [|h d]; [cbn; lia|]. destruct (_ <? _)%N eqn:El; [|cbn; lia]. apply N.ltb_lt in El.
  destruct (nth_error (h :: d) (N.to_nat n)) as [r|] eqn:Er; [|apply nth_error_None in Er; unfold rows_len in El; lia].
  apply ren_with_act_ok with (D := D); [apply Hn1|reflexivity| |].
  - intros hs. finish. apply table_ok. apply (names_fine good_val); auto using good_str'.
  - apply nth_error_In in Er. exact (proj1 (Forall_forall _ _) (proj2 G) r Er).
Qed.

(** *** adding tables *)
Lemma add_tab_act_ok (D : slots) byrow intersect in_ty v args : byrow = false \/ intersect = true -> is_a v in_ty -> forall k i t, good t ->
  (forall j, j < k -> nth_error args (i + j) = Some (Sig in_ty TTab D)) -> act_ok args [] TTab D D (add_tab_act W byrow intersect v k i t).
Proof.
  intros Hb Hv. induction k as [|k IH]; intros i t G Ha; cbn [add_tab_act].
  - finish. apply table_ok. exact G.
  - eexists. split; [rewrite <- (Ha 0) by lia; f_equal; lia|]. split; [refl_within|]. split; [exact Hv|]. cbn [sg_out]. intros x Hx.
    apply as_tab_ok in Hx. destruct Hx as (u & -> & Gu). cbn [as_tab try]. eapply act_try; [apply (add_fine good_val); eauto|].
    intros t' G'. apply IH; [exact G'|]. intros j Hj. rewrite <- (Ha (S j)) by lia. f_equal. lia.
Qed.
Lemma add_tab_sound byrow intersect : byrow = false \/ intersect = true -> sound (@add_tab_op W byrow intersect).
Proof.
  intros Hb D in_ty args s t Ui Hn Hp H Ut. unfold add_tab_op in H. open_input H Ui. destruct args as [|n args]; [discriminate|].
  destruct (all_return TTab TTab (n :: args)) as [hs| |] eqn:E; try discriminate. cbn [rbind] in H. injection H as <- <-.
  assert (F := all_return_ok W U HU Sg L D TTab TTab Ui Ui _ _ Hn Hp E).
  assert (Le : length hs = length (n :: args)). { apply Forall2_length' in F. rewrite map_length in F. exact F. }
  eapply op_ok; [exact F|]. intros v Hv. assert (Hv' := Hv). apply as_tab_ok in Hv'. destruct Hv' as (tb & -> & G). cbn [as_tab try].
  eapply add_tab_act_ok; eauto. intros j Hj. rewrite Le in Hj. apply same_args. exact Hj.
Qed.

(** *** keys *)
Lemma cmp_values_order t a b : comparable t -> is_a a t -> is_a b t -> cmp_values t a b = Ok (order a b).
Proof.
  intros C Ha Hb. unfold cmp_values. destruct (@cmp_right unit t C (HLit b)) as (s & E & R). rewrite E. cbn [rbind].
  specialize (R a [] tt (is_has _ _ _ Ha)).
  assert (K : t = TNil \/ forall w1 r, @resolve unit (HLit b) a [] tt = (w1, Ok r) -> has_ty r t -> invoke s a [] tt = (w1, Ok (VOrd (order a r), []))).
  { destruct t; auto; right; apply R. }
  assert (Q : snd (invoke s a [] tt) = Ok (VOrd (order a b), [])).
  { destruct K as [->|K].
    - rewrite R. inversion Ha; inversion Hb; subst. reflexivity.
    - rewrite (K tt b); [reflexivity|reflexivity|]. eapply is_has; eauto. }
  rewrite Q. destruct (order a b); reflexivity.
Qed.
Lemma key_arg_ok (D : slots) args h t : Forall (node_ok D) args -> Forall plain args -> key_arg args = Ok (h, t) ->
  U t /\ comparable t /\ good_holds [h] [Sig TTabRow t D].
Proof.
  intros Hn Hp H. unfold key_arg in H. destruct args as [|n [|? ?]]; try discriminate.
  inversion Hn as [|? ? Hn0 _]; inversion Hp as [|? ? Hp0 _]; subst. step_arg.
  destruct (concrete n) as [h'| |] eqn:E3; try discriminate. cbn [rbind] in H.
  destruct (cmp_step (n_out n) _) as [s| |] eqn:Es; try discriminate. cbn [rbind] in H. injection H as <- <-.
  apply arg_concrete with (D := D) in E3; auto. rewrite Ei in E3. assert (Uo := arg_out D n Hn0).
  split; [exact Uo|]. split; [eapply cmp_comparable; eauto|]. repeat constructor. exact E3.
Qed.
Lemma grp_by_sound : sound (@grp_by_op W).
Proof.
  intros D in_ty args s t Ui Hn Hp H Ut. unfold grp_by_op in H. open_input H Ui.
  destruct (key_arg args) as [[h kt]| |] eqn:E; try discriminate. cbn [rbind fst snd] in H. injection H as <- <-.
  destruct (key_arg_ok D args h kt Hn Hp E) as (Uk & _ & F).
  eapply op_ok; [exact F|]. intros v Hv. apply as_tab_ok in Hv. destruct Hv as (tb & -> & G). cbn [as_tab try].
  eapply over_data_ok; [reflexivity|refl_within|exact G|]. intros xs Hxs _. finish. apply table_ok.
  destruct tb as [|hd d].
  - apply (build_fine good_val); auto using good_str', good_tab. intros x [].
  - destruct G as [R C]. inversion C; subst. apply (grpby_fine good_val); auto using good_str', good_tab.
    eapply Forall_impl; [|exact Hxs]. intros x Hx. eapply good_of; eauto.
Qed.

(** *** text *)
Lemma to_str_bool_sound : sound (@to_str_bool_op W).
Proof. apply simple_sound; auto; [base|constructor|]. intros v xs i Hv -> Hxs _. inversion Hv; subst. constructor. Qed.
Lemma to_str_str_sound : sound (@to_str_str_op W).
Proof. apply simple_sound; auto; [base|constructor|]. intros v xs i Hv -> Hxs _. inversion Hv; subst. constructor. Qed.
Lemma to_str_sound fmt : sound (@to_str_op W fmt).
Proof. apply simple_sound; auto; [constructor|]. intros. constructor. Qed.
Lemma to_str_num_sound show parse : sound (@to_str_num_op W show parse).
Proof.
  intros D in_ty args s t Ui Hn Hp H Ut. unfold to_str_num_op in H. open_input H Ui.
  assert (K : exists f, s = Op [] [] (fun v => try (as_num v) (fun n => Done (VStr (f n)))) /\ t = TStr).
  { destruct args as [|f [|? ?]]; try discriminate; [injection H as <- <-; eauto|].
    destruct (supplied TNum f) as [f1| |]; try discriminate. cbn [rbind] in H. destruct (returns TStr f1) as [f2| |]; try discriminate. cbn [rbind] in H.
    destruct (concrete f2) as [h| |]; try discriminate. cbn [rbind] in H. destruct (literal_str h) as [x| |]; try discriminate. cbn [rbind] in H.
    destruct (parse x) as [g| |]; try discriminate. cbn [rbind] in H. injection H as <- <-. eauto. }
  destruct K as (f & -> & ->). apply op_ok with (args := []); [constructor|]. intros v Hv. inversion Hv; subst. finish. constructor.
Qed.
Lemma ls_tab_sound : sound (@ls_tab_op W).
Proof.
  apply simple_sound; auto; [base|constructor|]. intros v xs i Hv -> Hxs _. apply as_tab_ok in Hv. destruct Hv as (t & -> & [R C]). cbn [as_tab rbind].
  unfold headers. destruct t as [|h d]; [cbn; lia|]. cbn [rbind behaves]. apply table_ok. split; [apply table_from_rectangular|]. apply from_ok.
  inversion C; subst. constructor; [repeat constructor; apply good_str'|]. apply Forall_map. eapply Forall_impl; [|exact H1]. intros e He. repeat constructor. exact He.
Qed.
End MoreOps.
