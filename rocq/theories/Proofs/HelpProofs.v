(** Proofs for C79. *)
From Coq Require Import String List ZArith NArith Bool Arith Lia Sorted Permutation.
From Verif Require Import Model.Base Model.Value Model.Tuple Model.TableCrate Model.Ast Model.Registry Model.AstGraph Model.HelpList Spec.SortSpec Spec.RegistrySpec Spec.HelpSpec Proofs.SortProofs Proofs.RegistryProofs.
Import ListNotations.

Lemma show_shown : forall t, show_ty t = shown_name t. Proof. intros []; reflexivity. Qed.
Lemma key_cmp_sooner : forall a b, key_cmp a b <> Gt <-> sooner a b.
Proof. intros [a|] [b|]; cbn; rewrite ?show_shown; split; auto; try discriminate; try tauto. Qed.
Lemma key_cmp_pre : total_preorder key_cmp.
Proof.
  split; [|split].
  - intros [a|] _; cbn; [apply str_cmp_refl|reflexivity].
  - intros [a|] [b|] _ _; cbn; auto. apply str_cmp_antisym.
  - intros [a|] [b|] [c|] _ _ _; cbn; auto; try discriminate; try congruence. apply str_cmp_trans.
Qed.

Lemma ends_rev : forall s, ends_nl s = match rev s with c :: _ => N.eqb c 10 | [] => false end.
Proof.
  induction s as [|c s IH]; [reflexivity|]. destruct s as [|d s]; [reflexivity|].
  change (ends_nl (c :: d :: s)) with (ends_nl (d :: s)). rewrite IH. cbn [rev]. destruct (rev s ++ [d]) eqn:E; [|reflexivity].
  destruct (rev s); discriminate.
Qed.
Lemma gap_ends : forall s, (if ends_nl s then [] else nl) ++ nl = gap_after s.
Proof.
  intros s. rewrite ends_rev. unfold gap_after. destruct (rev s) as [|c l]; [reflexivity|].
  destruct (N.eqb_spec c 10) as [->|E]; [reflexivity|]. cbn.
  destruct c as [|p]; [reflexivity|]. repeat (destruct p as [p|p|]; try reflexivity; try congruence).
Qed.
Lemma ends_app : forall a b, b <> [] -> ends_nl (a ++ b) = ends_nl b.
Proof.
  intros a b H. rewrite !ends_rev, rev_app_distr. destruct (rev b) as [|c l] eqn:E; [|reflexivity].
  apply (f_equal (@rev N)) in E. rewrite rev_involutive in E. cbn in E. congruence.
Qed.
Lemma gap_app : forall a b, b <> [] -> gap_after (a ++ b) = gap_after b.
Proof. intros. rewrite <- !gap_ends, ends_app by assumption. reflexivity. Qed.
Lemma fold_paragraphs : forall xs x pre, x <> [] -> Forall (fun y => y <> []) xs -> fold_left add_source xs (pre ++ x) = pre ++ paragraphs (x :: xs).
Proof.
  induction xs as [|y xs IH]; intros x pre H F; [reflexivity|]. inversion F as [|? ? F1 F2]; subst. cbn [fold_left].
  assert (E : add_source (pre ++ x) y = (pre ++ x ++ gap_after x) ++ y).
  { unfold add_source. rewrite (app_assoc _ nl y), gap_ends, gap_app by assumption. now rewrite <- !app_assoc. }
  rewrite E, IH by assumption. change (paragraphs (x :: y :: xs)) with (x ++ gap_after x ++ paragraphs (y :: xs)). now rewrite <- !app_assoc.
Qed.
Lemma help_text_ne : forall m t, help_text m t <> [].
Proof. intros m t H. discriminate H. Qed.

Lemma joined_app : forall x a b, joined ((x :: a) ++ b) = joined (x :: a) ++ concat (map (fun y => 10%N :: y) b).
Proof. intros. cbn. now rewrite map_app, concat_app, app_assoc. Qed.
Lemma usage_groups : forall cmd sp ps,
  flat_map (fun p => match p with HBreak => nl ++ lit " => " ++ cmd | _ => [] end ++ sp ++ write_param p) ps =
  concat (map (fun p => sp ++ shown_param p) (fst (groups ps))) ++
  concat (map (fun y => 10%N :: y) (map (fun g => lit " => " ++ cmd ++ sp ++ concat (map (fun p => sp ++ shown_param p) g)) (snd (groups ps)))).
Proof.
  intros cmd sp. induction ps as [|p ps IH]; [reflexivity|]. cbn [flat_map groups]. rewrite IH. destruct (groups ps) as [g gs]. cbn [fst snd].
  destruct p; cbn [fst snd map concat write_param shown_param app]; rewrite <- ?app_assoc, ?app_nil_r; try reflexivity.
Qed.
Lemma help_text_shown : forall h key, help_text h key = shown_help h key.
Proof.
  intros h key. unfold help_text, shown_help, help_lines. cbv zeta. rewrite usage_groups. rewrite joined_app, !map_app, !concat_app.
  assert (F : match h_flags h with [] => [] | fs => nl ++ nl ++ lit "Flags:" ++ flat_map (fun f => nl ++ lit " --" ++ fst f ++ lit ": " ++ snd f) fs end =
    concat (map (fun y => 10%N :: y) (if h_flags h then [] else [[]; lit "Flags:"])) ++ concat (map (fun y => 10%N :: y) (map (fun f => lit " --" ++ fst f ++ lit ": " ++ snd f) (h_flags h)))).
  { destruct (h_flags h) as [|f fs]; [reflexivity|]. rewrite map_map, flat_map_concat_map. reflexivity. }
  assert (G : match h_examples h with [] => [] | es => nl ++ nl ++ lit "Examples:" ++ flat_map (fun e => nl ++ lit " " ++ fst e ++ nl ++ lit " => " ++ snd e ++ nl) es end =
    concat (map (fun y => 10%N :: y) (if h_examples h then [] else [[]; lit "Examples:"])) ++
    concat (map (fun y => 10%N :: y) (concat (map (fun e => [lit " " ++ fst e; lit " => " ++ snd e; []]) (h_examples h))))).
  { assert (X : forall es, flat_map (fun e => nl ++ lit " " ++ fst e ++ nl ++ lit " => " ++ snd e ++ nl) es =
      concat (map (fun y => 10%N :: y) (concat (map (fun e : str * str => [lit " " ++ fst e; lit " => " ++ snd e; []]) es)))).
    { induction es as [|e es IH]; [reflexivity|]. cbn [flat_map map concat]. rewrite map_app, concat_app, IH. cbn. rewrite <- ?app_assoc. cbn. rewrite <- ?app_assoc. reflexivity. }
    destruct (h_examples h) as [|e es]; [reflexivity|]. rewrite X. reflexivity. }
  rewrite F, G. clear F G. set (T := match key with Some t => show_ty t | None => lit "<any>" end).
  assert (E : match key with Some t => shown_name t | None => lit "<any>" end = T) by (destruct key; unfold T; rewrite ?show_shown; reflexivity). rewrite E.
  cbn [joined map concat app]. unfold nl. generalize (lit "---- Input Type: ") (lit " ----") (lit "Usage:") (lit " => "). intros a b c d. clear E. generalize T. clear T. intros T.
  repeat (rewrite <- ?app_assoc; cbn [app]). rewrite ?app_nil_r. reflexivity.
Qed.

Section Iter.
  Variable tys_order : list (ty * impl) -> list (ty * impl).
  Hypothesis TO : forall l, Permutation l (tys_order l).
  Notation keys_iter := (keys_iter tys_order).
  Lemma keys_iter_in : forall ks key i, In (key, i) (keys_iter ks) <-> match key with Some t => In (t, i) (k_tys ks) | None => k_any ks = Some i end.
  Proof.
    intros ks key i. unfold HelpList.keys_iter. rewrite in_app_iff, in_map_iff. split.
    - intros [([t j] & E & I)|I].
      + cbn in E. injection E as <- <-. eapply Permutation_in; [apply Permutation_sym, TO|exact I].
      + destruct (k_any ks) as [j|]; [|destruct I]. destruct I as [I|[]]. injection I as <- <-. reflexivity.
    - destruct key as [t|]; intros H.
      + left. exists (t, i). split; [reflexivity|]. eapply Permutation_in; [apply TO|exact H].
      + right. rewrite H. now left.
  Qed.
  Lemma keys_iter_nodup : forall ks, (forall i j a b, nth_error (k_tys ks) i = Some a -> nth_error (k_tys ks) j = Some b -> ty_eqb (fst a) (fst b) = true -> i = j) ->
    NoDup (map fst (keys_iter ks)).
  Proof.
    intros ks U. unfold HelpList.keys_iter. rewrite map_app, map_map. cbn [fst].
    assert (N : NoDup (map fst (k_tys ks))).
    { apply NoDup_nth_error. intros i j L E. rewrite !nth_error_map in E.
      rewrite map_length in L. destruct (nth_error (k_tys ks) i) as [a|] eqn:A; [|apply nth_error_None in A; lia].
      destruct (nth_error (k_tys ks) j) as [b|] eqn:B; [|discriminate]. cbn in E. injection E as E. eapply U; eauto. rewrite E. apply ty_eqb_refl. }
    assert (N2 : NoDup (map (fun e => Some (fst e)) (tys_order (k_tys ks)))).
    { assert (X : NoDup (map fst (tys_order (k_tys ks)))) by (eapply Permutation_NoDup; [apply Permutation_map, TO|exact N]).
      rewrite <- (map_map fst Some). apply FinFun.Injective_map_NoDup; [intros x y Z; congruence|exact X]. }
    destruct (k_any ks) as [i|]; cbn; [|now rewrite app_nil_r].
    apply NoDup_Add with (a := None) (l := map (fun e => Some (fst e)) (tys_order (k_tys ks))).
    - rewrite <- (app_nil_r (map (fun e => Some (fst e)) (tys_order (k_tys ks)))) at 1. apply Add_app.
    - split; [exact N2|]. intros I. apply in_map_iff in I. destruct I as (x & X & _). discriminate.
  Qed.
End Iter.

Lemma one_entry : forall (m : impls) op a b, NoDup (map fst m) -> In (op, a) m -> In (op, b) m -> a = b.
Proof.
  induction m as [|[n k] m IH]; intros op a b N A B; [destruct A|]. cbn in N. inversion N as [|? ? N1 N2]; subst.
  destruct A as [A|A], B as [B|B]; [congruence| | |eapply IH; eauto].
  - injection A as -> ->. destruct N1. now apply (in_map fst) in B.
  - injection B as -> ->. destruct N1. now apply (in_map fst) in A.
Qed.
Lemma alookup_entry : forall (m : impls) op, NoDup (map fst m) -> (forall ks, alookup str_eqb op m = Some ks <-> In (op, ks) m).
Proof.
  induction m as [|[n k] m IH]; intros op N ks; cbn; [split; [discriminate|tauto]|]. inversion N as [|? ? N1 N2]; subst.
  destruct (str_eqb_spec n op) as [->|E].
  - split; [intros X; injection X as ->; auto|]. intros [X|X]; [congruence|]. destruct N1. now apply (in_map fst) in X.
  - rewrite IH by assumption. split; [auto|]. intros [X|X]; [congruence|exact X].
Qed.

Section Help.
  Variable so : forall A : Type, (A -> A -> comparison) -> list A -> list A.
  Hypothesis SO : unstable_contract so.
  Variable tys_order : list (ty * impl) -> list (ty * impl).
  Hypothesis TO : forall l, Permutation l (tys_order l).
  Variable hp : impl -> help.
  Lemma help_shows : forall m op, wf_impls m -> exists es, NoDup (map fst es) /\ (forall key i, In (key, i) es <-> implemented m op key i) /\
    StronglySorted (fun a b => sooner (fst a) (fst b)) es /\
    get_help_all so tys_order hp m op = match es with [] => None | _ => Some (paragraphs (map (fun e => shown_help (hp (snd e)) (fst e)) es)) end.
  Proof.
    intros m op [W1 W2]. unfold get_help_all. destruct (alookup str_eqb op m) as [ks|] eqn:E.
    - apply (alookup_entry m op W1) in E. set (cmp := fun a b : option ty * impl => key_cmp (fst a) (fst b)).
      destruct (SO _ cmp (keys_iter tys_order ks)) as [P S].
      exists (so _ cmp (keys_iter tys_order ks)). split; [|split; [|split]].
      + eapply Permutation_NoDup; [apply Permutation_map; exact P|]. apply keys_iter_nodup; [exact TO|]. exact (W2 _ _ E).
      + intros key i. split; intros H.
        * apply (Permutation_in _ (Permutation_sym P)) in H. apply (keys_iter_in _ TO) in H. exists ks. auto.
        * apply (Permutation_in _ P). apply (keys_iter_in _ TO). destruct H as (ks' & I & H). now rewrite (one_entry m op ks ks' W1 E I).
      + assert (X : StronglySorted (fun a b => cmp a b <> Gt) (so _ cmp (keys_iter tys_order ks))).
        { apply S. apply total_preorder_all. apply (total_preorder_map (@fst (option ty) impl) key_cmp_pre). }
        clear - X. induction X as [|a l X IH F]; constructor; [exact IH|]. eapply Forall_impl; [|exact F]. intros b H. apply key_cmp_sooner. exact H.
      + fold cmp. rewrite <- (map_ext (fun e => help_text (hp (snd e)) (fst e)) _ (fun e => help_text_shown (hp (snd e)) (fst e))). destruct (so _ cmp (keys_iter tys_order ks)) as [|x xs]; [reflexivity|]. cbn [map]. f_equal.
        apply (fold_paragraphs _ _ []); [apply help_text_ne|]. apply Forall_forall. intros y I. apply in_map_iff in I. destruct I as (z & <- & _). apply help_text_ne.
    - exists []. split; [constructor|]. split; [|split; [constructor|reflexivity]].
      intros key i. split; [intros []|]. intros (ks & I & _). apply (alookup_entry m op W1) in I. congruence.
  Qed.
End Help.

Lemma sorted_unique : forall A (R : A -> A -> Prop) l l', Permutation l l' -> StronglySorted R l -> StronglySorted R l' ->
  (forall a b, In a l -> In b l -> R a b -> R b a -> a = b) -> l = l'.
Proof.
  intros A R. induction l as [|a l IH]; intros l' P S S' U.
  - now rewrite (Permutation_nil P).
  - destruct l' as [|b l']; [apply Permutation_sym, Permutation_nil in P; discriminate|].
    inversion S as [|? ? S1 S2]; subst. inversion S' as [|? ? S1' S2']; subst.
    assert (E : a = b).
    { assert (I : In a (b :: l')) by (eapply Permutation_in; [exact P|now left]).
      assert (J : In b (a :: l)) by (eapply Permutation_in; [apply Permutation_sym; exact P|now left]).
      destruct I as [I|I]; [auto|]. destruct J as [J|J]; [auto|]. rewrite Forall_forall in S2, S2'. apply U; [now left|now right|auto|auto]. }
    subst b. f_equal. apply IH; auto; [eapply Permutation_cons_inv; eauto|]. intros x y I J. apply U; now right.
Qed.
Lemma fst_inj : forall A B (l : list (A * B)) k i j, NoDup (map fst l) -> In (k, i) l -> In (k, j) l -> i = j.
Proof.
  intros A B. induction l as [|[n x] l IH]; intros k i j N I J; [destruct I|]. cbn in N. inversion N as [|? ? N1 N2]; subst.
  destruct I as [I|I], J as [J|J]; [congruence| | |eapply IH; eauto].
  - injection I as -> ->. destruct N1. now apply (in_map fst) in J.
  - injection J as -> ->. destruct N1. now apply (in_map fst) in I.
Qed.
Lemma help_same : forall so so' o o' hp m op, unstable_contract so -> unstable_contract so' -> (forall l, Permutation l (o l)) -> (forall l, Permutation l (o' l)) -> wf_impls m ->
  (forall t u i j, implemented m op (Some t) i -> implemented m op (Some u) j -> shown_name t = shown_name u -> t = u) ->
  get_help_all so o hp m op = get_help_all so' o' hp m op.
Proof.
  intros so so' o o' hp m op SO SO' O O' W D.
  destruct (help_shows so SO o O hp m op W) as (es & N & I & S & ->). destruct (help_shows so' SO' o' O' hp m op W) as (es' & N' & I' & S' & ->).
  assert (K : forall l : list (option ty * impl), NoDup (map fst l) -> NoDup l) by (intros l; apply NoDup_map_inv).
  assert (E : es = es'); [|now rewrite E].
  apply (sorted_unique _ (fun a b => sooner (fst a) (fst b))); auto.
  - apply NoDup_Permutation; auto. intros [key i]. now rewrite I, I'.
  - intros [ka ia] [kb ib] A B X Y. cbn in X, Y. assert (ka = kb).
    { apply I in A. apply I in B. destruct ka as [t|], kb as [u|]; cbn in X, Y; try tauto; try reflexivity. f_equal. apply (D t u ia ib A B).
      apply str_cmp_eq. cbn in X, Y. pose proof (str_cmp_antisym (shown_name t) (shown_name u)) as Z. destruct (str_cmp (shown_name t) (shown_name u)); [reflexivity| |congruence].
      cbn in Z. congruence. }
    subst kb. f_equal. exact (fst_inj _ _ es _ _ _ N A B).
Qed.

(** ** Running *)
Section Run.
  Variable so : forall A : Type, (A -> A -> comparison) -> list A -> list A.
  Variable o : list (ty * impl) -> list (ty * impl).
  Variable hp : impl -> help.
  Variables P V : Type.
  Variable parse : str -> res expr.
  Lemma help_spec : forall e, existsb is_help (match ex_blocks e with b :: _ => blk_terms b | [] => [] end) = true <-> asks_help e.
  Proof.
    intros e. unfold asks_help. split.
    - intros H. apply existsb_exists in H. destruct H as ([a|f] & I & H); [discriminate|]. destruct (ex_blocks e) as [|b bs]; [destruct I|].
      cbn in H. apply str_eqb_eq in H. exists b, bs, f. auto.
    - intros (b & bs & f & E & I & H). rewrite E. apply existsb_exists. exists (TFlag f). split; [exact I|]. cbn. now rewrite H, str_eqb_refl.
  Qed.
  Lemma help_only : forall (compile : expr -> res P) (eval : P -> res V) m text e n, parse text = Ok e -> asks_help e -> first_op e n ->
    process_expression so o hp parse compile eval m text = match get_help_all so o hp m n with Some t => Helps V t | None => Fails V 1 end.
  Proof.
    intros compile eval m text e n T A (b & bs & t & E & O & N). unfold process_expression, handle_help. rewrite T. cbn [answered].
    apply help_spec in A. rewrite E in *. rewrite A, O. cbn [rbind]. rewrite N. destruct (get_help_all so o hp m n); reflexivity.
  Qed.
  Lemma help_not : forall (compile : expr -> res P) (eval : P -> res V) m text e, parse text = Ok e -> ~ asks_help e ->
    process_expression so o hp parse compile eval m text = answered (compile e) (fun p => answered (eval p) (Gives (V := V))).
  Proof.
    intros compile eval m text e T A. unfold process_expression, handle_help. rewrite T. cbn [answered].
    destruct (ex_blocks e) as [|b bs] eqn:E; [reflexivity|]. destruct (existsb is_help (blk_terms b)) eqn:H; [|reflexivity].
    destruct A. apply help_spec. now rewrite E.
  Qed.
End Run.

(** ** The listing *)
Lemma nodup_flat : forall (f : keys -> list (option ty * impl)) (m : impls), NoDup (map fst m) -> (forall op ks, In (op, ks) m -> NoDup (map fst (f ks))) ->
  NoDup (map fst (flat_map (fun e => map (fun x => (fst e, fst x, snd x)) (f (snd e))) m)).
Proof.
  intros f. induction m as [|[n k] m IH]; intros N F; cbn; [constructor|]. inversion N as [|? ? N1 N2]; subst. rewrite map_app, map_map. cbn [fst snd].
  assert (A : NoDup (map (fun x : option ty * impl => (n, fst x)) (f k))).
  { rewrite <- (map_map fst (fun x => (n, x))). apply FinFun.Injective_map_NoDup; [intros x y Z; congruence|]. apply (F n). now left. }
  assert (B : forall x, In x (map (fun x : option ty * impl => (n, fst x)) (f k)) -> fst x = n) by (intros x I; apply in_map_iff in I; destruct I as (y & <- & _); reflexivity).
  assert (C : forall x, In x (map fst (flat_map (fun e => map (fun x => (fst e, fst x, snd x)) (f (snd e))) m)) -> fst x <> n).
  { intros x I Z. apply in_map_iff in I. destruct I as (y & <- & I). apply in_flat_map in I. destruct I as ([n' k'] & I1 & I2). apply in_map_iff in I2.
    destruct I2 as (z & <- & _). cbn in Z. subst n'. destruct N1. now apply (in_map fst) in I1. }
  specialize (IH N2 (fun op ks I => F op ks (or_intror I))). revert A B. generalize (map (fun x : option ty * impl => (n, fst x)) (f k)). intros l A B.
  induction l as [|x l IHl]; [exact IH|]. cbn. inversion A as [|? ? A1 A2]; subst. constructor.
  - intros I. apply in_app_or in I. destruct I as [I|I]; [contradiction|]. apply (C x I). apply B. now left.
  - apply IHl; [exact A2|]. intros y I. apply B. now right.
Qed.
Lemma list_spec : forall so to oo cat src m, sort_contract so -> (forall l, Permutation l (to l)) -> (forall l, Permutation l (oo l)) -> wf_impls m ->
  exists es, NoDup (map fst es) /\ (forall op key i, In (op, key, i) es <-> implemented m op key i) /\
    Permutation (map (def_row cat src) es) (def_rows so to oo cat src m) /\ StronglySorted (fun a b => str_cmp (r_name a) (r_name b) <> Gt) (def_rows so to oo cat src m).
Proof.
  intros so to oo cat src m SO TO OO [W1 W2]. exists (iter to oo m). split; [|split; [|split]].
  - unfold iter. assert (P := OO m). apply nodup_flat.
    + eapply Permutation_NoDup; [apply Permutation_map; exact P|exact W1].
    + intros op ks I. apply keys_iter_nodup; [exact TO|]. apply (W2 op). eapply Permutation_in; [apply Permutation_sym; exact P|exact I].
  - intros op key i. unfold iter. rewrite in_flat_map. split.
    + intros ([n ks] & I & J). apply in_map_iff in J. destruct J as ([k0 i0] & E & J). cbn in E. injection E as -> -> ->. apply (keys_iter_in _ TO) in J.
      exists ks. split; [eapply Permutation_in; [apply Permutation_sym, OO|exact I]|exact J].
    + intros (ks & I & J). exists (op, ks). split; [eapply Permutation_in; [apply OO|exact I]|]. apply in_map_iff. exists (key, i). split; [reflexivity|]. now apply (keys_iter_in _ TO).
  - unfold def_rows. destruct (SO _ input_cmp (map (def_row cat src) (iter to oo m))) as [P1 _].
    destruct (SO _ name_cmp (fst (so _ input_cmp (map (def_row cat src) (iter to oo m))))) as [P2 _]. eapply perm_trans; eauto.
  - unfold def_rows. destruct (SO _ name_cmp (fst (so _ input_cmp (map (def_row cat src) (iter to oo m))))) as (_ & S & _).
    apply S. apply total_preorder_all. apply (total_preorder_map r_name str_cmp_total).
Qed.

(** A sort that meets the contract, for examples *)
Definition usort : forall A : Type, (A -> A -> comparison) -> list A -> list A := fun A cmp l => fst (isort cmp l).
Lemma usort_contract : unstable_contract usort.
Proof. intros A cmp l. destruct (isort_contract cmp l) as (P & S & _). split; [exact P|]. intros T. now destruct (S T) as (_ & X & _). Qed.

Lemma row_listed : forall cat src op key i, listed cat src op key i (row_cells (def_row cat src (op, key, i))).
Proof.
  intros cat src op key i. unfold listed, row_cells, def_row. cbn [r_name r_cat r_input r_loc r_line r_code].
  exists (show_loc (im_loc i)), (match im_loc i with LFile _ l => ENum (num_of_Z (Z.of_N l)) | _ => ENil end), (match i with IIntrinsic _ _ => None | IDef d => Some (skipn 4 (src d)) end).
  split; [|split].
  - assert (K : option_map show_ty key = option_map shown_name key) by (destruct key as [t|]; cbn; [now rewrite show_shown|reflexivity]).
    rewrite K. destruct (im_loc i); reflexivity.
  - destruct (im_loc i); auto.
  - destruct i as [l f|d]; [exact I|]. intros rest E. rewrite E. reflexivity.
Qed.
Lemma table_spec : forall so to oo cat src m, sort_contract so -> (forall l, Permutation l (to l)) -> (forall l, Permutation l (oo l)) -> wf_impls m ->
  exists es rows, def_table so to oo cat src m = map (fun h => EObj (VStr (lit h))) ["name"; "category"; "input"; "location"; "line"; "code"]%string :: rows /\
    NoDup (map fst es) /\ (forall op key i, In (op, key, i) es <-> implemented m op key i) /\
    Forall2 (fun e row => listed cat src (fst (fst e)) (snd (fst e)) (snd e) row) es rows /\
    StronglySorted (fun a b => str_cmp (fst (fst a)) (fst (fst b)) <> Gt) es.
Proof.
  intros so to oo cat src m SO TO OO W. destruct (list_spec so to oo cat src m SO TO OO W) as (es & N & I & P & S).
  apply Permutation_sym in P. destruct (Permutation_map_inv _ _ P) as (es' & E & P').
  exists es', (map row_cells (def_rows so to oo cat src m)). split; [reflexivity|]. split; [|split; [|split]].
  - eapply Permutation_NoDup; [apply Permutation_map; exact P'|exact N].
  - intros op key i. rewrite <- I. split; apply Permutation_in; [apply Permutation_sym|]; exact P'.
  - rewrite E, map_map. clear. induction es' as [|[[op key] i] es' IH]; constructor; [apply row_listed|exact IH].
  - rewrite E in S. clear - S. induction es' as [|[[op key] i] es' IH]; [constructor|]. cbn [map] in S. inversion S as [|? ? S1 S2]; subst. constructor; [auto|].
    apply Forall_forall. intros [[op' key'] i'] J. rewrite Forall_forall in S2. apply (S2 (def_row cat src (op', key', i'))). now apply in_map.
Qed.
