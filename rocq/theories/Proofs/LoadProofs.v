(** Proofs for C78. *)
From Coq Require Import String List ZArith NArith Bool Arith Lia Permutation.
From Verif Require Import Model.Base Model.Utf Model.Value Model.Ast Model.Parse Model.Registry Model.ParseTy Model.File Model.Load Spec.RegistrySpec Spec.LoadSpec Proofs.RegistryProofs.
Import ListNotations.

(** ** Texts *)
Lemma begins_spec : forall w s, begins w s = true <-> exists r, s = w ++ r.
Proof.
  induction w as [|a w IH]; intros s; cbn; [split; eauto|]. destruct s as [|b s].
  - split; [discriminate|]. intros [r H]. discriminate.
  - rewrite andb_true_iff, N.eqb_eq, IH. split.
    + intros [-> [r ->]]. eauto.
    + intros [r H]. injection H as -> ->. eauto.
Qed.
Lemma within_spec : forall w s, within w s = true <-> has w s.
Proof.
  intros w. induction s as [|c s IH]; cbn [within]; rewrite orb_true_iff, begins_spec.
  - split.
    + intros [[r E]|H]; [|discriminate]. exists [], r. exact E.
    + intros (a & b & E). destruct a; [left; eauto|discriminate].
  - rewrite IH. split.
    + intros [[r E]|(a & b & E)]; [exists [], r; exact E|]. exists (c :: a), b. cbn. congruence.
    + intros (a & b & E). destruct a as [|x a]; [left; eauto|]. injection E as -> E. right. exists a, b. exact E.
Qed.
Lemma within_no : forall w s, ~ has w s -> within w s = false.
Proof. intros w s H. destruct (within w s) eqn:E; [|reflexivity]. apply within_spec in E. tauto. Qed.
Lemma not_both : forall r r', lit "def " ++ r = lit "def-ty " ++ r' -> False.
Proof. intros r r' H. cbn in H. discriminate H. Qed.

Section One.
  Variable k : lang.
  Lemma text_accepted : forall l t s s', plain t -> (process_definition k l t s = (Ok tt, s') <-> accepted k s l t s').
  Proof.
    intros l t s s' (P1 & P2 & P3). unfold process_definition, impl_text, ty_text, accepted.
    rewrite (within_no _ _ P1), (within_no _ _ P2), (within_no _ _ P3).
    destruct (begins (lit "def ") t) eqn:B1.
    - apply begins_spec in B1. destruct B1 as [r B1]. split.
      + unfold knows. intros H. destruct (definition_impl _ t) as [body [[[n i] ps] e]| | |] eqn:D; try discriminate.
        eexists. split; [eapply written_op; eauto|exact H].
      + intros (c & W & H). inversion W; subst.
        * unfold knows. match goal with D : definition_impl _ _ = _ |- _ => rewrite D end. exact H.
        * exfalso. eapply not_both. eassumption.
    - destruct (begins (lit "def-ty ") t) eqn:B2.
      + apply begins_spec in B2. destruct B2 as [r B2]. split.
        * unfold knows. intros H. destruct (definition_type _ t) as [body [n b]| | |] eqn:D; try discriminate.
          eexists. split; [eapply written_type; eauto|exact H].
        * intros (c & W & H). inversion W; subst.
          -- exfalso. eapply not_both. symmetry. eassumption.
          -- unfold knows. match goal with D : definition_type _ _ = _ |- _ => rewrite D end. exact H.
      + split; [discriminate|]. intros (c & W & H). inversion W as [rest ? ? ? ? ? E|rest ? ? ? E]; subst.
        * rewrite (proj2 (begins_spec (lit "def ") _)) in B1 by eauto. discriminate.
        * rewrite (proj2 (begins_spec (lit "def-ty ") _)) in B2 by eauto. discriminate.
  Qed.
  Lemma panic_unchanged : forall s c s', process false s c = (Panic, s') -> wf s -> s' = s.
  Proof.
    intros s [d|p|f] s' H [W _]; cbn [process] in H.
    - unfold process_impl in H. destruct (assert_all_ops_defined _ d); try (injection H as <-; auto); try discriminate; auto.
      destruct (match d_in d with Some n => _ | None => _ end); try (injection H as <-; auto); try discriminate; auto.
      destruct (insert_impl _ _ _); try (injection H as <-; auto); try discriminate; auto.
    - unfold process_ty in H. destruct (insert_type (df_types s) p) as [[ts d]| |] eqn:E; try (injection H as <-; auto); try discriminate; auto.
      apply wf_good in W. destruct (add_inits_ok (pt_loc p) (init_ops d) _ W) as (m & A & _). rewrite A in H. discriminate.
    - discriminate.
  Qed.
  (** Whatever the text is, it is one command or none. *)
  Lemma text_command : forall l t s r s', wf s -> process_definition k l t s = (r, s') ->
    s' = s \/ (r = Ok tt /\ exists c, process false s c = (Ok tt, s') /\ (l <> LOgma -> by_user c)).
  Proof.
    intros l t s r s' W H. unfold process_definition, impl_text, ty_text in H.
    assert (G : forall c, (l <> LOgma -> by_user c) -> process false s c = (r, s') ->
                s' = s \/ (r = Ok tt /\ exists c, process false s c = (Ok tt, s') /\ (l <> LOgma -> by_user c))).
    { intros c U E. destruct r as [[]|e|].
      - right. split; [reflexivity|]. exists c. auto.
      - left. eapply refused_unchanged; eauto.
      - left. eapply panic_unchanged; eauto. }
    destruct (begins (lit "def ") t).
    - destruct (within (lit "--help") t); [injection H as <- <-; auto|].
      destruct (within (lit " --list") t); [injection H as <- <-; auto|].
      destruct (within (lit " --clear") t); [eapply G; [|exact H]; cbn; auto|].
      destruct (definition_impl _ t) as [body [[[n i] ps] e]| | |]; try (injection H as <- <-; auto; fail).
      eapply G; [|exact H]. cbn. auto.
    - destruct (begins (lit "def-ty ") t); [|injection H as <- <-; auto].
      destruct (within (lit "--help") t); [injection H as <- <-; auto|].
      destruct (within (lit " --list") t); [injection H as <- <-; auto|].
      destruct (within (lit " --clear") t); [injection H as <- <-; auto|].
      destruct (definition_type _ t) as [body [n b]| | |]; try (injection H as <- <-; auto; fail).
      eapply G; [|exact H]. cbn. auto.
  Qed.
  Lemma refused_text : forall l t s r s', wf s -> process_definition k l t s = (r, s') -> r <> Ok tt -> s' = s.
  Proof. intros l t s r s' W H N. destruct (text_command _ _ _ _ _ W H) as [E|[E _]]; [exact E|congruence]. Qed.
  Lemma text_wf : forall l t s r s', wf s -> process_definition k l t s = (r, s') -> wf s'.
  Proof. intros l t s r s' W H. destruct (text_command _ _ _ _ _ W H) as [->|(_ & c & E & _)]; [exact W|]. eapply wf_process; eauto. Qed.

  (** ** Files *)
  Lemma items_spec : forall path items n s r s', wf s -> Forall (fun x => plain (it_code x)) items -> add_items k path items n s = (r, s') ->
    exists done rest, items = done ++ rest /\ loads k path s done s' /\
      match r with
      | Ok m => rest = [] /\ m = n + length done
      | _ => exists x xs, rest = x :: xs /\ forall s'', ~ accepted k s' (LFile path (it_line x)) (it_code x) s''
      end.
  Proof.
    intros path. induction items as [|x items IH]; intros n s r s' W P H; cbn in H.
    - injection H as <- <-. exists [], []. split; [reflexivity|]. split; [constructor|]. cbn. split; [reflexivity|lia].
    - inversion P as [|? ? P1 P2]; subst.
      destruct (process_definition k (LFile path (it_line x)) (it_code x) s) as [r1 s1] eqn:E.
      destruct r1 as [[]|e|].
      + destruct (IH _ _ _ _ (text_wf _ _ _ _ _ W E) P2 H) as (done & rest & -> & L & R).
        exists (x :: done), rest. split; [reflexivity|]. split; [econstructor; [apply text_accepted; eassumption|exact L]|].
        destruct r; [|exact R|exact R]. destruct R as [R1 R2]. split; [exact R1|]. cbn. lia.
      + injection H as <- <-. pose proof (refused_text _ _ _ _ _ W E ltac:(discriminate)) as ->.
        exists [], (x :: items). split; [reflexivity|]. split; [constructor|]. exists x, items. split; [reflexivity|].
        intros s'' A. apply text_accepted in A; [|exact P1]. congruence.
      + injection H as <- <-. pose proof (refused_text _ _ _ _ _ W E ltac:(discriminate)) as ->.
        exists [], (x :: items). split; [reflexivity|]. split; [constructor|]. exists x, items. split; [reflexivity|].
        intros s'' A. apply text_accepted in A; [|exact P1]. congruence.
  Qed.
  Lemma file_spec : forall path text f s r s', wf s -> parse_file k text = Ok f ->
    Forall (fun x => plain (it_code x)) (map snd (fl_types f ++ fl_impls f)) -> add_from_str k path text s = (r, s') ->
    exists done rest, map snd (fl_types f ++ fl_impls f) = done ++ rest /\ loads k path s done s' /\
      match r with
      | Ok m => rest = [] /\ m = length (fl_types f) + length (fl_impls f)
      | _ => exists x xs, rest = x :: xs /\ forall s'', ~ accepted k s' (LFile path (it_line x)) (it_code x) s''
      end.
  Proof.
    intros path text f s r s' W F P H. unfold add_from_str in H. rewrite F in H.
    destruct (items_spec _ _ _ _ _ _ W P H) as (done & rest & E & L & R). exists done, rest. split; [exact E|]. split; [exact L|].
    destruct r; [|exact R|exact R]. destruct R as [-> ->]. split; [reflexivity|].
    rewrite app_nil_r in E. rewrite <- E. cbn. now rewrite map_length, app_length.
  Qed.

  (** ** Loading is a run of commands of the user *)
  Definition ran (s s' : defs) : Prop := exists cs, Forall by_user cs /\ s' = snd (run false s cs).
  Lemma run_app_snd : forall cs s cs', snd (run false s (cs ++ cs')) = snd (run false (snd (run false s cs)) cs').
  Proof.
    induction cs as [|c cs IH]; intros s cs'; [reflexivity|]. cbn. destruct (process false s c) as [r s1].
    specialize (IH s1 cs'). destruct (run false s1 (cs ++ cs')), (run false s1 cs). cbn in *. exact IH.
  Qed.
  Lemma ran_refl : forall s, ran s s. Proof. intros s. exists []. split; [constructor|reflexivity]. Qed.
  Lemma ran_trans : forall a b c, ran a b -> ran b c -> ran a c.
  Proof. intros a b c (x & X & ->) (y & Y & ->). exists (x ++ y). split; [apply Forall_app; auto|]. now rewrite run_app_snd. Qed.
  Lemma ran_one : forall s c r s', by_user c -> process false s c = (r, s') -> ran s s'.
  Proof. intros s c r s' U H. exists [c]. split; [auto|]. cbn. now rewrite H. Qed.
  Lemma items_ran : forall path items n s r s', wf s -> add_items k path items n s = (r, s') -> ran s s' /\ wf s'.
  Proof.
    intros path. induction items as [|x items IH]; intros n s r s' W H; cbn in H; [injection H as <- <-; split; [apply ran_refl|auto]|].
    destruct (process_definition k (LFile path (it_line x)) (it_code x) s) as [r1 s1] eqn:E.
    assert (A : ran s s1 /\ wf s1).
    { split; [|eapply text_wf; eauto]. destruct (text_command _ _ _ _ _ W E) as [->|(_ & c & P & U)]; [apply ran_refl|].
      eapply ran_one; [apply U; discriminate|exact P]. }
    destruct A as [A W1]. destruct r1.
    - destruct (IH _ _ _ _ W1 H) as [B W2]. split; [eapply ran_trans; eauto|auto].
    - injection H as <- <-. auto.
    - injection H as <- <-. auto.
  Qed.
  Lemma files_ran : forall files s r s', wf s -> load_files k files s = (r, s') -> ran s s' /\ wf s'.
  Proof.
    induction files as [|[path text] files IH]; intros s r s' W H; cbn in H; [injection H as <- <-; split; [apply ran_refl|auto]|].
    destruct (add_from_str k path text s) as [r1 s1] eqn:E.
    assert (A : ran s s1 /\ wf s1).
    { unfold add_from_str in E. destruct (parse_file k text); [eapply items_ran; eauto| |]; injection E as <- <-; split; auto using ran_refl. }
    destruct A as [A W1]. destruct r1.
    - destruct (IH _ _ _ W1 H) as [B W2]. split; [eapply ran_trans; eauto|auto].
    - destruct (IH _ _ _ W1 H) as [B W2]. split; [eapply ran_trans; eauto|auto].
    - injection H as <- <-. auto.
  Qed.
End One.

(** ** Clearing gives back the very same definitions *)
Notation keep := (fun i : impl => kept false (im_loc i)).
Lemma filter_ainsert : forall (l : list (ty * impl)) t i, keep i = false ->
  (forall j, alookup ty_eqb t l = Some j -> keep j = false) ->
  filter (fun e => keep (snd e)) (ainsert ty_eqb t i l) = filter (fun e => keep (snd e)) l.
Proof.
  induction l as [|[t' j] l IH]; intros t i Hi Hj; cbn in *.
  - now rewrite Hi.
  - destruct (ty_eqb t' t); cbn.
    + rewrite Hi, (Hj j eq_refl). reflexivity.
    + rewrite IH by auto. reflexivity.
Qed.
Lemma retain_set : forall ks key i, keep i = false -> (forall j, keys_at ks key = Some j -> keep j = false) ->
  keys_retain keep (keys_set ks key i) = keys_retain keep ks.
Proof.
  intros [l a] [t|] i Hi Hj; cbn in *; unfold keys_retain; cbn.
  - now rewrite filter_ainsert.
  - rewrite Hi. destruct a as [j|]; [|reflexivity]. now rewrite (Hj j eq_refl).
Qed.
Lemma clear_set : forall m op key i, keep i = false -> (forall j, kat m op key = Some j -> keep j = false) ->
  impls_clear false (ainsert str_eqb op (keys_set (entry_or_default m op) key i) m) = impls_clear false m.
Proof.
  intros m op key i Hi Hj. unfold entry_or_default, kat in *.
  set (ks := match alookup str_eqb op m with Some k => k | None => Keys [] None end).
  assert (R : keys_retain keep (keys_set ks key i) = keys_retain keep ks).
  { apply retain_set; [exact Hi|]. intros j E. subst ks. destruct (alookup str_eqb op m); [apply Hj; exact E|]. destruct key; discriminate. }
  assert (K : match alookup str_eqb op m with Some k => ks = k | None => keys_empty (keys_retain keep ks) = true end).
  { subst ks. destruct (alookup str_eqb op m); reflexivity. }
  clearbody ks. revert K. generalize (keys_set ks key i) R. clear Hi Hj. intros v Rv. unfold impls_clear.
  induction m as [|[n k0] m IH]; cbn; intros K.
  - rewrite Rv, K. reflexivity.
  - destruct (str_eqb n op); cbn.
    + subst k0. rewrite Rv. reflexivity.
    + rewrite IH by exact K. reflexivity.
Qed.
Lemma clear_types_set : forall ts n l d, contains_type ts n = false -> l <> LOgma ->
  types_clear false (ainsert str_eqb n (TyUser l d) ts) = types_clear false ts.
Proof.
  intros ts n l d C L. unfold contains_type, types_clear in *. induction ts as [|[m e] ts IH]; cbn in *.
  - destruct l; [congruence| |]; reflexivity.
  - destruct (str_eqb m n); [discriminate|]. cbn. now rewrite IH.
Qed.
Lemma retain_twice : forall f ks, keys_retain keep (keys_retain (fun i => kept f (im_loc i)) ks) = keys_retain keep ks.
Proof.
  intros f [l a]. unfold keys_retain. cbn. f_equal.
  - induction l as [|[t i] l IH]; cbn; [reflexivity|]. destruct (im_loc i) eqn:E; cbn.
    + rewrite E. cbn. now rewrite IH.
    + destruct f; cbn; rewrite ?E; cbn; exact IH.
    + exact IH.
  - destruct a as [i|]; [|reflexivity]. destruct (im_loc i) eqn:E; cbn.
    + rewrite E. reflexivity.
    + destruct f; cbn; rewrite ?E; reflexivity.
    + reflexivity.
Qed.
Lemma clear_twice : forall f m, impls_clear false (impls_clear f m) = impls_clear false m.
Proof.
  intros f m. unfold impls_clear. induction m as [|[n ks] m IH]; cbn [map filter fst snd]; [reflexivity|].
  destruct (keys_empty (keys_retain (fun i => kept f (im_loc i)) ks)) eqn:E; cbn [negb].
  - assert (Z : keys_empty (keys_retain keep ks) = true).
    { rewrite <- (retain_twice f ks). destruct (keys_retain (fun i => kept f (im_loc i)) ks) as [[|x l] [a|]]; try discriminate. reflexivity. }
    rewrite Z. cbn [negb]. exact IH.
  - cbn [map filter fst snd]. rewrite retain_twice. destruct (keys_empty (keys_retain keep ks)); cbn [negb]; [exact IH|]. now rewrite IH.
Qed.
Lemma clear_types_twice : forall f ts, types_clear false (types_clear f ts) = types_clear false ts.
Proof.
  intros f ts. unfold types_clear. induction ts as [|[n [t|l d]] ts IH]; cbn; [reflexivity|now rewrite IH|].
  destruct l; cbn; [now rewrite IH| |exact IH]. destruct f; cbn; exact IH.
Qed.

Definition cleared (s : defs) : defs := Defs (impls_clear false (df_impls s)) (types_clear false (df_types s)).
Lemma clear_inits : forall l ops m M, good m -> l <> LOgma -> impls_clear false m = M -> (forall op f, In (op, f) ops -> kat M op None = None) ->
  forall m', add_inits false l ops m = Ok m' -> impls_clear false m' = M.
Proof.
  intros l. induction ops as [|[op f] ops IH]; intros m M G L C N m' H; cbn [add_inits] in H; [now injection H as <-|].
  assert (KN : forall j, kat m op None = Some j -> keep j = false).
  { intros j E. destruct (keep j) eqn:Z; [|reflexivity]. exfalso.
    pose proof (kat_clear false m op None G) as X. rewrite C, (N op f (or_introl eq_refl)), E in X. cbn beta in X, Z. rewrite Z in X. discriminate. }
  assert (I : insert_intrinsic false m op None l f = Ok (ainsert str_eqb op (keys_set (entry_or_default m op) None (IIntrinsic l f)) m)).
  { unfold insert_intrinsic. destruct (keys_at _ _); reflexivity. }
  rewrite I in H. cbn [rbind] in H. eapply IH; [apply good_set; exact G|exact L| |intros; eapply N; right; eassumption|exact H].
  rewrite clear_set; [exact C| |exact KN]. cbn. destruct l; [congruence| |]; reflexivity.
Qed.
Lemma init_constructs : forall d op f, In (op, f) (init_ops d) -> exists v, constructs d op = Some v.
Proof.
  intros d op f I. pose proof (constructs_find d op) as X.
  destruct (find (fun e => str_eqb (fst e) op) (rev (init_ops d))) as [e|] eqn:F.
  - destruct (constructs d op); [eauto|discriminate].
  - exfalso. apply in_rev in I. pose proof (find_none _ _ F _ I) as Z. cbn in Z. rewrite str_eqb_refl in Z. discriminate.
Qed.

Lemma clear_step : forall s c r s', wf s -> by_user c -> process false s c = (r, s') ->
  (forall l d op v, event_of s c r s' = EvTy l d -> constructs d op = Some v -> kat (impls_clear false (df_impls s)) op None = None) ->
  cleared s' = cleared s.
Proof.
  intros s c r s' W U H C. pose proof W as [W1 W2]. apply wf_good in W1. destruct c as [d|p|f]; cbn [process] in H.
  - unfold process_impl in H. destruct (assert_all_ops_defined _ d); try (injection H as <- <-; reflexivity).
    destruct (match d_in d with Some n => _ | None => _ end) as [key| |]; try (injection H as <- <-; reflexivity).
    destruct (insert_impl (df_impls s) key d) as [m| |] eqn:E; injection H as <- <-; try reflexivity.
    unfold cleared. cbn [df_impls df_types]. f_equal. unfold insert_impl in E.
    change (match alookup str_eqb (d_name d) (df_impls s) with Some k => keys_at k key | None => None end) with (kat (df_impls s) (d_name d) key) in E.
    assert (X : forall j, kat (df_impls s) (d_name d) key = Some j -> keep j = false).
    { intros j K. rewrite K in E. destruct (ogma_defined j) eqn:O; [discriminate|]. destruct j as [l f|d']; cbn in O; [discriminate|]. cbn.
      destruct (d_loc d'); [discriminate| |]; reflexivity. }
    assert (Y : m = ainsert str_eqb (d_name d) (keys_set (entry_or_default (df_impls s) (d_name d)) key (IDef d)) (df_impls s)).
    { destruct (kat (df_impls s) (d_name d) key) as [j|]; [destruct (ogma_defined j); [discriminate|]|]; now injection E as <-. }
    subst m. apply clear_set; [|exact X]. cbn in U |- *. destruct (d_loc d); [congruence| |]; reflexivity.
  - unfold process_ty in H. destruct (insert_type (df_types s) p) as [[ts d]| |] eqn:E; try (injection H as <- <-; reflexivity).
    destruct (insert_type_spec _ _ _ _ E) as (N & K & ->).
    destruct (add_inits_ok (pt_loc p) (init_ops d) _ W1) as (m & A & _). rewrite A in H. injection H as <- <-.
    unfold cleared. cbn [df_impls df_types]. rewrite clear_types_set by assumption. f_equal.
    eapply clear_inits; [exact W1|exact U|reflexivity| |exact A].
    intros op f I. destruct (init_constructs _ _ _ I) as [v V]. eapply C; [|exact V].
    unfold event_of. cbn [df_types]. rewrite get_type_insert, str_eqb_refl. cbn. reflexivity.
  - injection H as <- <-. unfold cleared. cbn [df_impls df_types]. now rewrite clear_twice, clear_types_twice.
Qed.
Lemma clear_run : forall cs s, wf s -> Forall by_user cs -> (forall op, constructor_made (observe false s cs) op -> kat (impls_clear false (df_impls s)) op None = None) ->
  cleared (snd (run false s cs)) = cleared s.
Proof.
  induction cs as [|c cs IH]; intros s W U C; [reflexivity|]. inversion U as [|? ? U1 U2]; subst.
  cbn [run observe] in *. destruct (process false s c) as [r s1] eqn:E. cbn [snd].
  assert (S : cleared s1 = cleared s).
  { eapply clear_step; eauto. intros l d op v X V. apply C. exists l, d, v. split; [left; congruence|exact V]. }
  specialize (IH s1 (wf_process _ _ _ _ W E) U2). destruct (run false s1 cs) as [rs s2]. cbn [snd] in *. rewrite <- S. apply IH.
  intros op (l & d & v & I & V). injection S as -> _. apply C. exists l, d, v. split; [now right|exact V].
Qed.
Lemma clear_base : forall base, built_in base -> full base -> cleared base = base.
Proof.
  intros [im ts] (W & BI & BT) F. unfold cleared. cbn [df_impls df_types] in *. f_equal.
  - clear W BT. unfold full in F. cbn in F. unfold impls_clear. induction im as [|[n ks] im IH]; cbn; [reflexivity|].
    assert (R : keys_retain keep ks = ks).
    { destruct ks as [l a]. unfold keys_retain. cbn. f_equal.
      - assert (Z : forall i, In i (map snd l) -> im_loc i = LOgma) by (intros i I; apply (BI n (Keys l a) i); cbn; auto).
        clear - Z. induction l as [|[t i] l IH]; cbn in *; [reflexivity|]. rewrite (Z i) by auto. cbn. f_equal. apply IH. auto.
      - destruct a as [i|]; [|reflexivity]. rewrite (BI n (Keys l (Some i)) i); cbn; auto. }
    rewrite R. specialize (F n ks (or_introl eq_refl)) as FE.
    assert (E : keys_empty ks = false) by (destruct ks as [[|x l] [a|]]; cbn in *; try reflexivity; destruct FE; congruence).
    rewrite E. cbn. f_equal. apply IH.
    + intros op k i I. apply (BI op k i). now right.
    + intros op k I. apply (F op k). now right.
  - clear W BI F. unfold types_clear. induction ts as [|[n [t|l d]] ts IH]; cbn in *; [reflexivity|f_equal; apply IH; eauto|].
    rewrite (BT n l d) by auto. cbn. f_equal. apply IH. eauto.
Qed.

Lemma cleared_base : forall base s, built_in base -> full base -> ran base s -> intact base s -> cleared s = base.
Proof.
  intros base s B F (cs & U & ->) I. pose proof B as (W & BI & _). rewrite clear_run; [apply clear_base; auto|exact W|exact U|].
  intros op M. pose proof (f_equal df_impls (clear_base _ B F)) as CI. cbn [cleared df_impls] in CI.
  destruct (kat (impls_clear false (df_impls base)) op None) as [i|] eqn:E; [|reflexivity]. exfalso.
  assert (E' : kat (df_impls base) op None = Some i).
  { rewrite <- E, CI. reflexivity. }
  rewrite <- at_key_kat in E'. pose proof (I _ _ E') as J.
  destruct (process false (snd (run false base cs)) (CClear false)) as [r s'] eqn:P.
  destruct (clear_all base cs B U _ r s' eq_refl P op None) as [_ X]. specialize (X eq_refl M). rewrite at_key_kat in X, J.
  cbn in P. injection P as <- <-. cbn [df_impls] in X.
  destruct W as [W _]. apply wf_good in W. destruct (run false base cs) as [rs s1] eqn:R. cbn [snd] in *.
  destruct (run_lookup _ _ _ _ W R) as [G _]. rewrite kat_clear, J in X by exact G.
  rewrite at_key_kat in E'. destruct (kat_loc _ _ _ _ E') as (n & ks & IN & D). rewrite (BI _ _ _ IN D) in X. discriminate.
Qed.
Lemma reload : forall k base cs files s, built_in base -> full base -> Forall by_user cs -> s = snd (run false base cs) -> intact base s ->
  def_load k files s = def_load k files base.
Proof.
  intros k base cs files s B F U E I. unfold def_load. cbn [process snd].
  change (load_files k files (cleared s) = load_files k files (cleared base)).
  rewrite (cleared_base base s B F), (clear_base base B F); [reflexivity| |exact I]. exists cs. auto.
Qed.
Lemma load_twice : forall k base files other s, built_in base -> full base -> s = snd (def_load k other base) -> intact base s ->
  def_load k files s = def_load k files base.
Proof.
  intros k base files other s B F -> I. unfold def_load in *. cbn [process snd] in *.
  change (load_files k files (cleared (snd (load_files k other (cleared base)))) = load_files k files (cleared base)).
  change (intact base (snd (load_files k other (cleared base)))) in I.
  rewrite (clear_base base B F) in *. destruct (load_files k other base) as [r s1] eqn:E. cbn [snd] in *.
  destruct (files_ran k _ _ _ _ (proj1 B) E) as [R _]. now rewrite (cleared_base base s1 B F R I).
Qed.
