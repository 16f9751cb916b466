(** Reading what was written. *)
From Coq Require Import String List ZArith NArith Bool Arith Lia.
From Verif Require Import Model.Base Model.Utf Model.Ast Model.Parse Spec.ParseSpec Proofs.ParseSpanProofs.
Import ListNotations.

Lemma skip_idem : forall i, skip (skip i) = skip i.
Proof. induction i as [|c i IH]; [reflexivity|]. cbn. destruct (ms c) eqn:E; [exact IH|]. cbn. now rewrite E. Qed.
Lemma ms_in : forall c, ms c = true <-> In c [32%N; 9%N; 13%N; 10%N].
Proof. intros c. unfold ms. rewrite !orb_true_iff, !N.eqb_eq. cbn. intuition congruence. Qed.
Lemma skip_spaces : forall w i, spaces w -> skip (w ++ i) = skip i.
Proof.
  induction w as [|c w IH]; intros i H; [reflexivity|]. cbn. rewrite (proj2 (ms_in c)) by (apply H; now left). apply IH. intros x Hx. apply H. now right.
Qed.
Lemma span_all : forall p t X, forallb p t = true -> (X = [] \/ exists c X', X = c :: X' /\ p c = false) -> span p (t ++ X) = (t, X).
Proof.
  induction t as [|c t IH]; intros X H HX; cbn in *.
  - destruct HX as [->|(c & X' & -> & E)]; cbn; [reflexivity|]. now rewrite E.
  - apply andb_prop in H. destruct H as [H1 H2]. rewrite H1, (IH X H2 HX). reflexivity.
Qed.
Lemma span1_all : forall p t X, t <> [] -> forallb p t = true -> (X = [] \/ exists c X', X = c :: X' /\ p c = false) -> span1 p (t ++ X) = POk X t.
Proof. intros p t X N H HX. unfold span1. rewrite (span_all p t X H HX). destruct t; [congruence|reflexivity]. Qed.

Scheme w_arg_min := Minimality for w_arg Sort Prop with w_term_min := Minimality for w_term Sort Prop
  with w_terms_min := Minimality for w_terms Sort Prop with w_block_min := Minimality for w_block Sort Prop
  with w_blocks_min := Minimality for w_blocks Sort Prop.
Combined Scheme w_all from w_arg_min, w_term_min, w_terms_min, w_block_min, w_blocks_min.

Section W.
  Variable k : lang.
  Variable line : str.
  Hypothesis K : sane k.
  Notation off := (offset line).

  Definition hard (X : str) : Prop := X = [] \/ exists c X', X = c :: X' /\ (c = 124%N \/ c = 125%N).
  Definition soft (X : str) : Prop := X = [] \/ exists c X', X = c :: X' /\ (ms c = true \/ c = 124%N \/ c = 125%N).
  (** What may follow an argument *)
  Definition follow (b : bool) (X : str) : Prop := soft X \/ b = true /\ exists X', X = 46%N :: X'.

  Lemma hard_soft : forall X, hard X -> soft X.
  Proof. intros X [->|(c & X' & -> & H)]; [now left|]. right. exists c, X'. tauto. Qed.
  Lemma hard_skip : forall X, hard X -> skip X = X.
  Proof. intros X [->|(c & X' & -> & [-> | ->])]; reflexivity. Qed.
  Lemma spaces_soft : forall w X, spaces w -> hard X -> soft (w ++ X).
  Proof.
    intros [|c w] X H HX; [now apply hard_soft|]. right. exists c, (w ++ X). split; [reflexivity|]. left. apply ms_in. apply H. now left.
  Qed.
  Lemma gap_soft : forall w X, gap w -> soft (w ++ X).
  Proof.
    intros [|c w] X [N H]; [congruence|]. right. exists c, (w ++ X). split; [reflexivity|]. left. apply ms_in. apply H. now left.
  Qed.

  Lemma not_alnum : forall c, In c marks \/ ms c = true -> alnum k c = false.
  Proof.
    intros c H. destruct (alnum k c) eqn:E; [|reflexivity]. destruct (@sane_alnum _ K c E) as [A B]. destruct H as [H|H]; [tauto|].
    apply ms_in in H. rewrite (@sane_white _ K c H) in A. discriminate.
  Qed.
  Lemma not_alpha : forall c, In c marks \/ ms c = true -> alpha k c = false.
  Proof. intros c H. destruct (alpha k c) eqn:E; [|reflexivity]. apply (@sane_alpha _ K) in E. now rewrite (not_alnum c H) in E. Qed.
  Lemma not_id : forall c, (In c marks /\ c <> 45%N) \/ ms c = true -> idchar k c = false.
  Proof.
    intros c H. unfold idchar. rewrite (not_alnum c) by tauto. cbn.
    destruct (N.eqb_spec c 45) as [->|n]; [destruct H as [H|H]; [tauto|discriminate]|]. destruct (N.eqb_spec c 95) as [->|n2]; [|reflexivity].
    destruct H as [[H _]|H]; [|discriminate]. cbn in H. repeat (destruct H as [H|H]; [discriminate|]). destruct H.
  Qed.
  Lemma idchar_in : forall c, idchar k c = true <-> name_char k c.
  Proof. intros c. unfold idchar, name_char. rewrite !orb_true_iff, !N.eqb_eq. tauto. Qed.
  Ltac inm := cbn; repeat (first [left; reflexivity|right]); fail.
  Lemma soft_break : forall X, soft X -> X = [] \/ exists c X', X = c :: X' /\ negb (breakon k c) = false.
  Proof.
    intros X [->|(c & X' & -> & H)]; [now left|]. right. exists c, X'. split; [reflexivity|]. apply negb_false_iff. unfold breakon.
    destruct H as [H|[-> | ->]]; [|reflexivity|reflexivity]. rewrite (@sane_white _ K c) by now apply ms_in. apply orb_true_r.
  Qed.
  Definition stop (X : str) : Prop := X = [] \/ exists c X', X = c :: X' /\ idchar k c = false.
  Lemma soft_stop : forall X, soft X -> stop X.
  Proof.
    intros X [->|(c & X' & -> & H)]; [now left|]. right. exists c, X'. split; [reflexivity|]. apply not_id. destruct H as [H|[-> | ->]]; [now right|left|left]; (split; [|discriminate]); inm.
  Qed.
  Lemma follow_stop : forall b X, follow b X -> stop X.
  Proof.
    intros b X [H|(_ & X' & ->)]; [now apply soft_stop|]. right. exists 46%N, X'. split; [reflexivity|]. apply not_id. left. split; [|discriminate]. inm.
  Qed.
  Lemma follow_58 : forall b X, follow b X -> starts 58 X = false.
  Proof.
    intros b X [[->|(c & X' & -> & H)]|(_ & X' & ->)]; [reflexivity| |reflexivity]. cbn. apply N.eqb_neq. intros ->. destruct H as [H|[H|H]]; discriminate.
  Qed.
  Lemma soft_46 : forall X, soft X -> starts 46 X = false.
  Proof. intros X [->|(c & X' & -> & H)]; [reflexivity|]. cbn. apply N.eqb_neq. intros ->. destruct H as [H|[H|H]]; discriminate. Qed.

  Lemma name_ids : forall n, name k n -> n <> [] /\ forallb (idchar k) n = true.
  Proof.
    intros n [(c & s & E & A) H]. split; [now rewrite E|]. apply forallb_forall. intros x Hx. apply idchar_in. now apply H.
  Qed.
  Lemma text : forall i j t s, suf i line -> covers line i j t -> i = s ++ j -> tg_str t = s.
  Proof. intros i j t s H -> ->. now apply mk_text. Qed.
  Lemma er_text : forall t t', tg_str t' = tg_str t -> er_tag t' = er_tag t.
  Proof. intros t t' H. unfold er_tag. now rewrite H. Qed.

  (** *** Names *)
  Lemma read_name : forall n X, suf (n ++ X) line -> name k n -> stop X -> exists t, op_ident k line (n ++ X) = POk X t /\ tg_str t = n.
  Proof.
    intros n X H N S. assert (N' := N). destruct N as [(c & s & -> & A) _]. destruct (name_ids _ N') as [N1 N2].
    exists (create_tag line ((c :: s) ++ X) (c :: s)). split.
    - unfold op_ident. cbn [app]. rewrite A. change (c :: s ++ X) with ((c :: s) ++ X). rewrite (span1_all _ _ _ N1 N2 S). reflexivity.
    - eapply text; [exact H|now apply create_covers|reflexivity].
  Qed.
  Lemma names_first : forall n, names k n -> exists c s, n = c :: s /\ alpha k c = true.
  Proof. intros n [n' [(c & s & -> & A) _]|n' ns [(c & s & -> & A) _] H]; eauto. cbn. eauto. Qed.

  (** What may follow an op *)
  Definition op_stop (X : str) : Prop := stop X /\ starts 47 X = false /\ starts 61 X = false /\ forall X', X <> 58%N :: 58%N :: X'.
  Definition seg_stop (X : str) : Prop := stop X /\ forall X', X <> 58%N :: 58%N :: X'.
  Lemma op_seg : forall X, op_stop X -> seg_stop X.
  Proof. intros X (A & _ & _ & B). now split. Qed.
  Lemma strip_none : forall p i, (forall j, i <> p ++ j) -> strip p i = None.
  Proof. intros p i H. destruct (strip p i) as [j|] eqn:E; [|reflexivity]. apply strip_app in E. now apply H in E. Qed.
  Lemma stop_colon : forall X, stop (58%N :: X).
  Proof. intros X. right. exists 58%N, X. split; [reflexivity|]. apply not_id. left. split; [inm|discriminate]. Qed.
  Lemma chain_end : forall X f t, seg_stop X -> chain k line f X t = (X, t).
  Proof.
    intros X [|f] t [_ H]; [reflexivity|]. cbn [chain]. unfold ptag. rewrite strip_none; [reflexivity|]. intros j. apply (H j).
  Qed.
  Lemma read_chain : forall ns, names k ns -> forall X f t0, suf (lit "::" ++ ns ++ X) line -> seg_stop X -> length (lit "::" ++ ns) <= f ->
    exists t, chain k line f (lit "::" ++ ns ++ X) t0 = (X, t).
  Proof.
    intros ns H. induction H as [n N|n ns N H IH]; intros X f t0 S P L; (destruct f as [|f]; [cbn in L; lia|]);
      assert (T : ptag (lit "::") (lit "::" ++ n ++ X) = POk (n ++ X) (lit "::")) by (unfold ptag; now rewrite (proj2 (strip_app _ _ _) eq_refl));
      cbn [chain].
    - rewrite T. cbn [pbind]. destruct (read_name n X) as (t & -> & _); [exact (suf_trans _ _ _ (ex_intro _ (lit "::") eq_refl) S)|auto|apply P|].
      exists t. now apply chain_end.
    - clear T. assert (T : ptag (lit "::") (lit "::" ++ (n ++ lit "::" ++ ns) ++ X) = POk (n ++ lit "::" ++ ns ++ X) (lit "::")).
      { unfold ptag. rewrite (proj2 (strip_app (lit "::") _ ((n ++ lit "::" ++ ns) ++ X)) eq_refl). now rewrite <- !app_assoc. }
      assert (S' : suf (n ++ lit "::" ++ ns ++ X) line).
      { eapply suf_trans; [|exact S]. exists (lit "::"). now rewrite <- !app_assoc. }
      rewrite T. cbn [pbind]. destruct (read_name n (lit "::" ++ ns ++ X)) as (t & -> & _); [auto|auto|apply stop_colon|].
      apply IH; auto; [exact (suf_trans _ _ _ (ex_intro _ n eq_refl) S')|]. rewrite !app_length in *. cbn in *. lia.
  Qed.
  Lemma read_names : forall n X, suf (n ++ X) line -> names k n -> seg_stop X -> exists t, tmp_op k line (n ++ X) = POk X t /\ tg_str t = n.
  Proof.
    intros n X S N P. assert (L : exists t, tmp_op k line (n ++ X) = POk X t).
    { unfold tmp_op. destruct N as [n N|n ns N H].
      - destruct (read_name n X S N) as (t & -> & _); [apply P|]. cbn [pbind]. rewrite chain_end by auto. eauto.
      - rewrite <- !app_assoc in *. destruct (read_name n (lit "::" ++ ns ++ X) S N (stop_colon _)) as (t & -> & _). cbn [pbind].
        destruct (read_chain ns H X (length (lit "::" ++ ns ++ X)) t) as (t' & E); auto.
        + exact (suf_trans _ _ _ (ex_intro _ n eq_refl) S).
        + rewrite !app_length. lia.
        + rewrite E. eauto. }
    destruct L as (t & E). exists t. split; [auto|]. assert (G := tmp_op_good k line (n ++ X) S). rewrite E in G. destruct G as (_ & _ & C).
    eapply text; eauto.
  Qed.

  Lemma seg_slash : forall X, seg_stop (47%N :: X).
  Proof.
    intros X. split; [|discriminate]. right. exists 47%N, X. split; [reflexivity|]. apply not_id. left. split; [inm|discriminate].
  Qed.
  Lemma sep_end : forall X f acc, starts 47 X = false -> sep_list k line f X acc = (X, acc).
  Proof.
    intros X [|f] acc H; [reflexivity|]. cbn [sep_list]. unfold ptag. rewrite strip_none; [reflexivity|]. intros j ->. discriminate.
  Qed.
  Lemma w_path_split : forall cs s, w_path k cs s -> exists a cs' s', cs = a :: cs' /\ s = tg_str a ++ s' /\ names k (tg_str a) /\ cs' <> [] /\
    forall X, op_stop X -> seg_stop (s' ++ X).
  Proof.
    intros cs s [a b A B|a cs' s' A H].
    - exists a, [b], (lit "/" ++ tg_str b). repeat split; auto; [discriminate|right; do 2 eexists; split; [reflexivity|apply not_id; left; split; [inm|discriminate]]|discriminate].
    - exists a, cs', (lit "/" ++ s'). repeat split; auto; [destruct H; discriminate|right; do 2 eexists; split; [reflexivity|apply not_id; left; split; [inm|discriminate]]|discriminate].
  Qed.
  Lemma read_sep : forall cs s, w_path k cs s -> forall X f acc, suf (lit "/" ++ s ++ X) line -> op_stop X -> length (lit "/" ++ s) <= f ->
    exists cs', sep_list k line f (lit "/" ++ s ++ X) acc = (X, acc ++ cs') /\ map er_tag cs' = map er_tag cs.
  Proof.
    intros cs s H. induction H as [a b A B|a cs s A H IH]; intros X f acc S P L; (destruct f as [|f]; [cbn in L; lia|]).
    - cbn [sep_list]. unfold ptag. rewrite (proj2 (strip_app (lit "/") _ ((tg_str a ++ lit "/" ++ tg_str b) ++ X)) eq_refl). cbn [pbind].
      rewrite <- !app_assoc in *. assert (S1 := suf_trans _ _ _ (ex_intro _ (lit "/") eq_refl) S : suf (tg_str a ++ lit "/" ++ tg_str b ++ X) line).
      destruct (read_names _ _ S1 A (seg_slash _)) as (t & -> & Et). assert (S2 := suf_trans _ _ _ (ex_intro _ (tg_str a) eq_refl) S1).
      destruct f as [|f]; [rewrite !app_length in L; cbn in L; lia|]. cbn [sep_list]. unfold ptag. rewrite (proj2 (strip_app (lit "/") _ (tg_str b ++ X)) eq_refl).
      cbn [pbind]. assert (S3 := suf_trans _ _ _ (ex_intro _ (lit "/") eq_refl) S2 : suf (tg_str b ++ X) line).
      destruct (read_names _ _ S3 B (op_seg _ P)) as (t' & -> & Et'). rewrite sep_end by apply P. exists [t; t']. rewrite <- app_assoc. split; [reflexivity|].
      cbn. now rewrite (er_text a t Et), (er_text b t' Et').
    - cbn [sep_list]. unfold ptag. rewrite (proj2 (strip_app (lit "/") _ ((tg_str a ++ lit "/" ++ s) ++ X)) eq_refl). cbn [pbind].
      rewrite <- !app_assoc in *. assert (S1 := suf_trans _ _ _ (ex_intro _ (lit "/") eq_refl) S : suf (tg_str a ++ lit "/" ++ s ++ X) line).
      destruct (read_names _ _ S1 A (seg_slash _)) as (t & -> & Et). assert (S2 := suf_trans _ _ _ (ex_intro _ (tg_str a) eq_refl) S1).
      destruct (IH X f (acc ++ [t]) S2 P) as (cs' & E & M); [rewrite !app_length in *; cbn in *; lia|].
      exists (t :: cs'). rewrite E, <- app_assoc. split; [reflexivity|]. cbn. now rewrite (er_text a t Et), M.
  Qed.

  Lemma alt_none : forall l c i, (forall p, In p l -> exists a p', p = a :: p' /\ a <> c) -> alt_tags l (c :: i) = PErr.
  Proof.
    induction l as [|p l IH]; intros c i H; [reflexivity|]. cbn [alt_tags]. destruct (H p (or_introl eq_refl)) as (a & p' & -> & N).
    unfold ptag. cbn [strip]. destruct (N.eqb_spec a c); [congruence|]. apply IH. intros q Hq. apply H. now right.
  Qed.
  Lemma spec_none : forall c i, ~ In c (lit "\+-*/=!<>." ++ [215%N; 247%N]) -> spec_op (c :: i) = PErr.
  Proof.
    intros c i H. apply alt_none. intros p Hp. cbn in Hp.
    repeat (destruct Hp as [<-|Hp]; [do 2 eexists; split; [reflexivity|]; intros E; apply H; rewrite <- E; inm|]). destruct Hp.
  Qed.
  Lemma alpha_spec : forall c i, alpha k c = true -> spec_op (c :: i) = PErr.
  Proof.
    intros c i H. apply spec_none. intros N. rewrite not_alpha in H; [discriminate|]. left.
    cbn in N. repeat (destruct N as [<-|N]; [inm|]). destruct N.
  Qed.
  Lemma read_symbol : forall p X, In p symbols -> starts 61 X = false -> spec_op (p ++ X) = POk X p.
  Proof.
    intros p X H E.
    assert (G : ptag (lit ">=") (lit ">" ++ X) = PErr).
    { unfold ptag. rewrite strip_none; [reflexivity|]. intros j Ej. cbn in Ej. injection Ej as ->. discriminate. }
    assert (L : ptag (lit "<=") (lit "<" ++ X) = PErr).
    { unfold ptag. rewrite strip_none; [reflexivity|]. intros j Ej. cbn in Ej. injection Ej as ->. discriminate. }
    assert (HG : spec_op (lit ">" ++ X) = POk X (lit ">")).
    { transitivity (match ptag (lit ">=") (lit ">" ++ X) with PErr => alt_tags (skipn 10 specials) (lit ">" ++ X) | r => r end); [reflexivity|].
      rewrite G. reflexivity. }
    assert (HL : spec_op (lit "<" ++ X) = POk X (lit "<")).
    { transitivity (match ptag (lit "<=") (lit "<" ++ X) with PErr => alt_tags (skipn 11 specials) (lit "<" ++ X) | r => r end); [reflexivity|].
      rewrite L. reflexivity. }
    clear G L. cbn in H. repeat (destruct H as [<-|H]; [first [reflexivity|exact HG|exact HL]|]). destruct H.
  Qed.
  Lemma read_op : forall o s X, w_op k o s -> suf (s ++ X) line -> op_stop X -> exists o', op k line (s ++ X) = POk X o' /\ er_op o' = er_op o.
  Proof.
    intros o s X H S P. unfold op. destruct o as [t|cs i r].
    - destruct H as [-> [H|H]].
      + rewrite (read_symbol _ X H) by apply P. eexists. split; [reflexivity|]. cbn. f_equal. apply er_text.
        eapply text; [exact S|now apply create_covers|reflexivity].
      + destruct (names_first _ H) as (c & s' & Ec & A). assert (Q : spec_op (tg_str t ++ X) = PErr) by (rewrite Ec; now apply alpha_spec).
        rewrite Q. unfold path. assert (Z : strip (lit "/") (tg_str t ++ X) = None).
        { apply strip_none. intros j Ej. rewrite Ec in Ej. injection Ej as -> _. rewrite not_alpha in A; [discriminate|left; inm]. }
        rewrite Z. destruct (read_names _ X S H (op_seg _ P)) as (t' & -> & Et). cbn [pbind]. rewrite sep_end by apply P.
        assert (P2 := P). destruct P2 as (_ & -> & _). cbn [pbind fst]. eexists. split; [reflexivity|]. cbn. f_equal. now apply er_text.
    - destruct H as (-> & -> & H). destruct (w_path_split _ _ H) as (a & cs' & s' & -> & -> & A & _).
      destruct (names_first _ A) as (c & s2 & Ec & Al). rewrite <- app_assoc in *.
      assert (Q : spec_op (tg_str a ++ s' ++ X) = PErr) by (rewrite Ec; now apply alpha_spec).
      rewrite Q. unfold path. assert (Z : strip (lit "/") (tg_str a ++ s' ++ X) = None).
      { apply strip_none. intros j Ej. rewrite Ec in Ej. injection Ej as -> _. rewrite not_alpha in Al; [discriminate|left; inm]. }
      rewrite Z. clear Q Z. inversion H as [a' b A' B Ea Es|a' cs s3 A' H' Ea Es]; subst; apply app_inv_head in Es; subst s'.
      + cbn [app] in *. destruct (read_names _ _ S A (seg_slash (tg_str b ++ X))) as (t & Et & Tt). rewrite Et. cbn [pbind].
        change (47%N :: tg_str b ++ X) with (lit "/" ++ tg_str b ++ X) in *.
        assert (S2 := suf_trans _ _ _ (ex_intro _ (tg_str a) eq_refl) S).
        assert (S3 := suf_trans _ _ _ (ex_intro _ (lit "/") eq_refl) S2 : suf (tg_str b ++ X) line).
        destruct (read_names _ _ S3 B (op_seg _ P)) as (t' & E' & Tt').
        assert (L : exists n, length (lit "/" ++ tg_str b ++ X) = Datatypes.S n) by (cbn; eauto). destruct L as (n & ->).
        cbn [sep_list]. unfold ptag. rewrite (proj2 (strip_app (lit "/") _ (tg_str b ++ X)) eq_refl). cbn [pbind]. rewrite E', sep_end by apply P.
        assert (P2 := P). destruct P2 as (_ & -> & _). cbn [pbind fst app]. eexists. split; [reflexivity|]. cbn. now rewrite (er_text a t Tt), (er_text b t' Tt').
      + cbn [app] in *. destruct (read_names _ _ S A (seg_slash (s3 ++ X))) as (t & Et & Tt). rewrite Et. cbn [pbind].
        change (47%N :: s3 ++ X) with (lit "/" ++ s3 ++ X) in *.
        assert (S2 := suf_trans _ _ _ (ex_intro _ (tg_str a) eq_refl) S).
        destruct (read_sep cs' s3 H' X (length (lit "/" ++ s3 ++ X)) [t] S2 P) as (cs2 & -> & M); [rewrite !app_length; lia|].
        assert (P2 := P). destruct P2 as (_ & -> & _). cbn [pbind fst app]. destruct cs2 as [|x cs2].
        * exfalso. destruct H'; discriminate M.
        * eexists. split; [reflexivity|]. cbn. cbn in M. now rewrite (er_text a t Tt), M.
  Qed.

  Lemma read_ty : forall o s X, w_ty k o s -> suf (s ++ X) line -> stop X -> starts 58 X = false ->
    exists o', opt_ty k line (s ++ X) = POk X o' /\ option_map er_tag o' = option_map er_tag o.
  Proof.
    intros [t|] s X H S P E; cbn in H.
    - destruct H as [N ->]. assert (S1 := suf_trans _ _ _ (suf_cons _ _) S : suf (tg_str t ++ X) line). destruct (read_name _ X S1 N P) as (t' & E' & T).
      unfold opt_ty. cbn [app pchar]. rewrite N.eqb_refl. cbn [pbind]. rewrite E'. cbn. eexists. split; [reflexivity|]. cbn. f_equal. now apply er_text.
    - subst s. cbn [app]. unfold opt_ty. destruct X as [|x X]; [eexists; split; reflexivity|]. cbn in E |- *. rewrite E. eexists. split; reflexivity.
  Qed.

  (** *** Words and quotes *)
  Lemma word_chars : forall t, word k t -> forallb (fun c => negb (breakon k c)) t = true.
  Proof.
    intros t [_ H]. apply forallb_forall. intros c Hc. destruct (H c Hc) as [W N]. apply negb_true_iff. unfold breakon. rewrite W, orb_false_r.
    cbn in N. destruct (N.eqb_spec c 124), (N.eqb_spec c 123), (N.eqb_spec c 125), (N.eqb_spec c 58); subst; cbn; auto; exfalso; apply N; auto.
  Qed.
  Lemma read_word : forall t X, word k t -> soft X -> token k (t ++ X) = POk X t.
  Proof. intros t X W S. unfold token. apply span1_all; [apply W|now apply word_chars|now apply soft_break]. Qed.
  Lemma word_first : forall t, word k t -> exists c s, t = c :: s /\ breakon k c = false /\ ms c = false.
  Proof.
    intros [|c s] W; [destruct W; congruence|]. exists c, s. split; [reflexivity|]. assert (B := word_chars _ W). cbn in B. apply andb_prop in B. destruct B as [B _].
    apply negb_true_iff in B. split; [auto|]. destruct (ms c) eqn:E; [|reflexivity]. unfold breakon in B. rewrite (@sane_white _ K c) in B by now apply ms_in.
    now rewrite orb_true_r in B.
  Qed.
  Lemma breakon_starts : forall c i, breakon k c = false -> starts 123 (c :: i) = false /\ starts 58 (c :: i) = false /\ breakon_s k (c :: i) = false.
  Proof.
    intros c i B. cbn. split; [|split; [|exact B]]; apply N.eqb_neq; intros ->; cbn in B; discriminate.
  Qed.
  Lemma no_pre : forall q t X, no_prefix [q] t -> t <> [] -> starts q (t ++ X) = false.
  Proof. intros q [|c t] X H N; [congruence|]. cbn. apply N.eqb_neq. intros ->. now apply (H t). Qed.
  Lemma read_quoted : forall q t X, ~ In q t -> quoted q (q :: t ++ q :: X) = POk X t.
  Proof.
    intros q t X H. unfold quoted. cbn [pchar]. rewrite N.eqb_refl. cbn [pbind].
    rewrite (span_all (fun c => negb (N.eqb c q)) t (q :: X)).
    - cbn. rewrite N.eqb_refl. reflexivity.
    - apply forallb_forall. intros c Hc. apply negb_true_iff, N.eqb_neq. intros ->. tauto.
    - right. exists q, X. split; [reflexivity|]. now rewrite N.eqb_refl.
  Qed.
  Lemma read_ident_q : forall t s X, in_quotes t s -> suf (s ++ X) line -> exists t', ident k line (s ++ X) = POk X t' /\ tg_str t' = t.
  Proof.
    intros t s X (q & Q & N & ->) S. cbn [app] in *. rewrite <- app_assoc in *. cbn [app] in *.
    exists (create_tag line (t ++ q :: X) t). split.
    - unfold ident. assert (R := read_quoted q t X N).
      cbn in Q. destruct Q as [<-|[<-|[]]]; cbn [starts tl]; cbn [N.eqb Pos.eqb]; rewrite R; reflexivity.
    - eapply text; [exact (suf_trans _ _ _ (suf_cons _ _) S)|apply create_covers; [exact (suf_trans _ _ _ (suf_cons _ _) S)|reflexivity]|reflexivity].
  Qed.
  Lemma read_ident_w : forall t X, word k t -> (forall c, In c (lit """'") -> no_prefix [c] t) -> soft X -> suf (t ++ X) line ->
    exists t', ident k line (t ++ X) = POk X t' /\ tg_str t' = t.
  Proof.
    intros t X W Q SX S. exists (create_tag line (t ++ X) t). split.
    - unfold ident. destruct (word_first _ W) as (c & s & E & B & _). assert (B2 := breakon_starts c (s ++ X) B). rewrite E in *. cbn [app] in *.
      destruct B2 as (_ & -> & _). change (c :: s ++ X) with ((c :: s) ++ X). rewrite !no_pre by (try discriminate; apply Q; cbn; tauto).
      now rewrite (read_word _ _ W SX).
    - eapply text; [exact S|now apply create_covers|reflexivity].
  Qed.

  (** *** First characters *)
  Lemma symbol_first : forall p, In p symbols -> exists c p', p = c :: p' /\ In c (lit "\+-*/=!<>." ++ [215%N; 247%N]).
  Proof. intros p H. cbn in H. repeat (destruct H as [<-|H]; [do 2 eexists; split; [reflexivity|inm]|]). destruct H. Qed.
  Lemma sym_marks : forall c, In c (lit "\+-*/=!<>." ++ [215%N; 247%N]) -> In c marks /\ ~ In c (lit "|{}:$#""'").
  Proof.
    intros c H. split.
    - cbn in H. repeat (destruct H as [<-|H]; [inm|]). destruct H.
    - intros N. cbn in H, N. repeat (destruct H as [<-|H]; [repeat (destruct N as [N|N]; [discriminate|]); destruct N|]). destruct H.
  Qed.
  Lemma id_break : forall c, idchar k c = true -> breakon k c = false.
  Proof.
    intros c H. apply idchar_in in H.
    assert (W : white k c = false). { destruct H as [H|[->| ->]]; [apply (@sane_alnum _ K c H)| |]; apply (@sane_marks _ K); inm. }
    unfold breakon. rewrite W, orb_false_r. assert (N : ~ In c (lit "|{}:")).
    { intros I. destruct H as [H|[->| ->]]; [|cbn in I; repeat (destruct I as [I|I]; [discriminate|]); destruct I..].
      apply (@sane_alnum _ K c H). cbn in I. repeat (destruct I as [<-|I]; [inm|]). destruct I. }
    cbn in N. destruct (N.eqb_spec c 124), (N.eqb_spec c 123), (N.eqb_spec c 125), (N.eqb_spec c 58); subst; cbn; auto; exfalso; apply N; auto.
  Qed.
  Lemma alpha_id : forall c, alpha k c = true -> idchar k c = true.
  Proof. intros c H. apply idchar_in. left. now apply (@sane_alpha _ K). Qed.
  Lemma alpha_mark : forall c, alpha k c = true -> ~ In c marks.
  Proof. intros c H. apply (@sane_alpha _ K) in H. apply (@sane_alnum _ K c H). Qed.
  Lemma sym_break : forall c, In c (lit "\+-*/=!<>." ++ [215%N; 247%N]) -> breakon k c = false.
  Proof.
    intros c H. destruct (sym_marks c H) as [M N]. unfold breakon. rewrite (@sane_marks _ K c) by (apply in_or_app; now left). rewrite orb_false_r.
    cbn in N. destruct (N.eqb_spec c 124), (N.eqb_spec c 123), (N.eqb_spec c 125), (N.eqb_spec c 58); subst; cbn; auto; exfalso; apply N; auto 10.
  Qed.
  Lemma break_ms : forall c, breakon k c = false -> ms c = false.
  Proof.
    intros c B. destruct (ms c) eqn:E; [|reflexivity]. unfold breakon in B. rewrite (@sane_white _ K c) in B by now apply ms_in. now rewrite orb_true_r in B.
  Qed.
  (** The first character of an op *)
  Definition op_char (c : N) : Prop := alpha k c = true \/ In c (lit "\+-*/=!<>." ++ [215%N; 247%N]).
  Lemma op_char_break : forall c, op_char c -> breakon k c = false.
  Proof. intros c [H|H]; [now apply id_break, alpha_id|now apply sym_break]. Qed.
  Lemma op_char_not : forall c, op_char c -> ~ In c (lit "|{}:$#""'").
  Proof.
    intros c [H|H]; [|now apply sym_marks]. intros I. apply (alpha_mark c H). cbn in I. repeat (destruct I as [<-|I]; [inm|]). destruct I.
  Qed.
  Lemma single_first : forall s, In s symbols \/ names k s -> exists c s', s = c :: s' /\ op_char c.
  Proof.
    intros s [H|H].
    - destruct (symbol_first s H) as (c & p & -> & I). exists c, p. split; [reflexivity|now right].
    - destruct (names_first s H) as (c & p & -> & A). exists c, p. split; [reflexivity|now left].
  Qed.
  Lemma op_first : forall o s, w_op k o s -> exists c s', s = c :: s' /\ op_char c.
  Proof.
    intros [t|cs i r] s H; cbn in H.
    - destruct H as [-> H]. now apply single_first.
    - destruct H as (_ & _ & H). destruct (w_path_split _ _ H) as (a & cs' & s' & _ & -> & A & _). destruct (names_first _ A) as (c & p & -> & Al).
      exists c, (p ++ s'). split; [reflexivity|now left].
  Qed.
  Lemma block_first : forall b s, w_block k b s -> exists c s', s = c :: s' /\ ms c = false /\ c <> 125%N /\ c <> 124%N.
  Proof.
    intros b s H. destruct H as [o ts i out si w so sout sts Hi Hn Hg Ho _ _]. destruct i as [t|].
    - destruct Hi as [_ ->]. cbn. do 2 eexists. split; [reflexivity|]. repeat split; discriminate.
    - cbn in Hi. subst si. rewrite (Hn eq_refl). destruct (op_first o so Ho) as (c & s' & -> & C). cbn. do 2 eexists. split; [reflexivity|].
      split; [now apply break_ms, op_char_break|]. assert (N := op_char_not c C). split; intros ->; apply N; inm.
  Qed.
  Lemma skip_cons : forall c i, ms c = false -> skip (c :: i) = c :: i.
  Proof. intros c i H. cbn. now rewrite H. Qed.

  Lemma ty_none : forall X, starts 58 X = false -> opt_ty k line X = POk X None.
  Proof. intros [|x X] E; [reflexivity|]. cbn in E. unfold opt_ty. cbn [pchar]. rewrite E. reflexivity. Qed.
  Lemma soft_58 : forall X, soft X -> starts 58 X = false.
  Proof. intros X H. apply (follow_58 false). now left. Qed.
  Lemma soft_op_stop : forall X, soft X -> op_stop X.
  Proof.
    intros X H. split; [now apply soft_stop|]. destruct H as [->|(c & X' & -> & H)]; [repeat split; discriminate|].
    assert (c <> 47%N /\ c <> 61%N /\ c <> 58%N) by (repeat split; intros ->; destruct H as [H|[H|H]]; discriminate).
    split; [apply N.eqb_neq; tauto|]. split; [apply N.eqb_neq; tauto|]. intros X'' E. injection E as -> _. tauto.
  Qed.
  Lemma ty_op_stop : forall o so X, w_ty k o so -> soft X -> op_stop (so ++ X) /\ starts 45 (so ++ X) = false /\
    ((so ++ X) = [] \/ exists c X', so ++ X = c :: X' /\ negb (breakon k c) = false).
  Proof.
    intros [t|] so X H SX; cbn in H.
    - destruct H as [N ->]. split; [|split; [reflexivity|right; do 2 eexists; split; [reflexivity|reflexivity]]]. cbn.
      split; [apply stop_colon|]. split; [reflexivity|]. split; [reflexivity|]. intros X' E. injection E as E. destruct N as [(c & s & Ec & A) _].
      rewrite Ec in E. injection E as -> _. apply (alpha_mark _ A). inm.
    - subst so. cbn [app]. split; [now apply soft_op_stop|]. split; [|now apply soft_break].
      destruct SX as [->|(c & X' & -> & H)]; [reflexivity|]. cbn. apply N.eqb_neq. intros ->. destruct H as [H|[H|H]]; discriminate.
  Qed.
  Lemma terms_soft : forall ts s w rest, w_terms k ts s -> spaces w -> hard rest -> soft (s ++ w ++ rest).
  Proof.
    intros ts s w rest H W R. destruct H as [|t ts w0 s0 s' G _ _|et t ts out w0 s0 G _ _ _]; cbn [app].
    - now apply spaces_soft.
    - rewrite <- app_assoc. now apply gap_soft.
    - rewrite <- app_assoc. now apply gap_soft.
  Qed.

  (** *** No term, no op *)
  Lemma alpha_mark' : forall c, In c marks -> alpha k c = false.
  Proof. intros c H. apply not_alpha. now left. Qed.
  Lemma no_term : forall f rest, hard rest -> p_term k line (S (S f)) rest = PErr.
  Proof.
    intros f rest H. rewrite p_term_S. destruct H as [->|(c & X & -> & [->| ->])].
    - cbn [strip lit]. rewrite p_arg_S. reflexivity.
    - cbn [strip]. rewrite p_arg_S. reflexivity.
    - cbn [strip]. rewrite p_arg_S. reflexivity.
  Qed.
  Lemma no_op : forall rest, hard rest -> op k line rest = PErr.
  Proof.
    intros rest [->|(c & X & -> & [->| ->])]; [reflexivity| |]; unfold op, path, tmp_op, op_ident; cbn; now rewrite alpha_mark' by inm.
  Qed.
  Lemma no_block : forall f rest, hard rest -> p_block k line (S f) rest = PErr.
  Proof.
    intros f rest H. rewrite p_block_S, ty_none by (now apply soft_58, hard_soft). cbn [pbind]. now rewrite hard_skip, no_op by auto.
  Qed.
  Lemma no_terms : forall f i rest acc, hard rest -> skip i = rest -> p_terms k line (S (S (S f))) i acc = POk i acc.
  Proof. intros f i rest acc H E. rewrite p_terms_S. unfold ws. rewrite E, no_term by auto. reflexivity. Qed.
  Lemma skip_len : forall i, length (skip i) <= length i.
  Proof. intros i. apply suf_len, suf_skip. Qed.
  Ltac len := repeat match goal with H : skip ?i = _ |- _ => match goal with K : length (skip i) <= length i |- _ => fail 1 | _ => pose proof (skip_len i) end end;
    repeat match goal with H : skip ?i = _, L : length (skip ?i) <= _ |- _ => rewrite H in L end; cbn [length] in *; repeat rewrite app_length in *;
    repeat match goal with
    | |- context [length (lit ?x)] => let v := eval compute in (length (lit x)) in change (length (lit x)) with v
    | H : context [length (lit ?x)] |- _ => let v := eval compute in (length (lit x)) in change (length (lit x)) with v in H
    end; cbn [length] in *; lia.

  (** *** Tokens of ops *)
  Lemma names_chars : forall n, names k n -> forall c, In c n -> idchar k c = true \/ c = 58%N.
  Proof.
    intros n H. induction H as [n N|n ns N H IH]; intros c Hc; [left; apply idchar_in; now apply N|].
    apply in_app_or in Hc. destruct Hc as [Hc|Hc]; [left; apply idchar_in; now apply N|]. apply in_app_or in Hc. destruct Hc as [Hc|Hc]; [|now apply IH].
    cbn in Hc. right. destruct Hc as [<-|[<-|[]]]; reflexivity.
  Qed.
  Lemma span_inv : forall p i a b, span p i = (a, b) -> forallb p a = true /\ (b = [] \/ exists c b', b = c :: b' /\ p c = false).
  Proof.
    induction i as [|c i IH]; intros a b H; cbn in H; [injection H as <- <-; split; [reflexivity|now left]|]. destruct (p c) eqn:E.
    - destruct (span p i) as [a' b'] eqn:Es. injection H as <- <-. destruct (IH a' b' eq_refl) as [A B]. split; [cbn; now rewrite E|auto].
    - injection H as <- <-. split; [reflexivity|]. right. eauto.
  Qed.
  Lemma op_token : forall t Y, In t symbols \/ names k t -> (Y = [] \/ exists c Y', Y = c :: Y' /\ negb (breakon k c) = false) ->
    (forall a b, t = a ++ b -> (b = [] \/ exists b', b = 58%N :: b') -> ~ In 58%N a -> number k a = None) -> num k line (t ++ Y) = PErr.
  Proof.
    intros t Y H HY Q. destruct (span (fun c => negb (breakon k c)) t) as [a b] eqn:E. assert (E' := E). apply span_app in E. apply span_inv in E'. destruct E' as [A B].
    assert (C : forall c, In c t -> breakon k c = false \/ c = 58%N).
    { intros c Hc. destruct H as [H|H].
      - left. cbn in H. repeat (destruct H as [<-|H]; [cbn in Hc; repeat (destruct Hc as [<-|Hc]; [apply sym_break; inm|]); destruct Hc|]). destruct H.
      - destruct (names_chars t H c Hc); [left; now apply id_break|now right]. }
    assert (B' : b = [] \/ exists b', b = 58%N :: b').
    { destruct B as [B|(c & b' & -> & Bc)]; [now left|]. right. exists b'. destruct (C c) as [Z|Z]; [rewrite E; apply in_or_app; right; now left| |now subst].
      cbv beta in Bc. rewrite Z in Bc. discriminate. }
    assert (N : ~ In 58%N a). { intros I. rewrite forallb_forall in A. apply A in I. discriminate. }
    assert (Na : a <> []).
    { intros ->. destruct (single_first t H) as (c & s' & Et & Oc). cbn in E. subst b. rewrite Et in B. destruct B as [B|(c' & b' & B & Bc)]; [discriminate|].
      injection B as <- _. rewrite (op_char_break c Oc) in Bc. discriminate. }
    unfold num, token. rewrite E, <- app_assoc. rewrite (span1_all _ a (b ++ Y) Na A).
    - cbn [pbind]. now rewrite (Q a b E B' N).
    - destruct B' as [->|(b' & ->)]; [exact HY|]. right. do 2 eexists. split; [reflexivity|reflexivity].
  Qed.
  Lemma no_dashes : forall t Y, (forall r, t <> 45%N :: 45%N :: r) -> t <> [] -> starts 45 Y = false -> strip (lit "--") (t ++ Y) = None.
  Proof.
    intros t Y H N E. apply strip_none. intros j Ej. destruct t as [|a [|b t]]; [congruence| |].
    - cbn in Ej. injection Ej as -> ->. discriminate.
    - cbn in Ej. injection Ej as -> -> _. now apply (H t).
  Qed.
  Lemma follow_45 : forall c X, follow c X -> starts 45 X = false.
  Proof.
    intros b X [[->|(c & X' & -> & H)]|(_ & X' & ->)]; [reflexivity| |reflexivity]. cbn. apply N.eqb_neq. intros ->. destruct H as [H|[H|H]]; discriminate.
  Qed.

  (** *** A plain word is not an op *)
  Lemma alt_inv : forall l i j p, alt_tags l i = POk j p -> In p l /\ i = p ++ j.
  Proof.
    induction l as [|q l IH]; intros i j p H; [discriminate|]. cbn [alt_tags] in H. unfold ptag in H. destruct (strip q i) as [r|] eqn:E.
    - injection H as <- <-. apply strip_app in E. split; [now left|auto].
    - destruct (IH _ _ _ H). split; [now right|auto].
  Qed.
  Lemma spec_symbols : forall p, In p specials -> In p symbols.
  Proof. intros p H. cbn in H. repeat (destruct H as [<-|H]; [inm|]). destruct H. Qed.
  Lemma alt_hit : forall l p i j, In p l -> i = p ++ j -> alt_tags l i <> PErr.
  Proof.
    induction l as [|q l IH]; intros p i j H E; [destruct H|]. cbn [alt_tags]. unfold ptag. destruct (strip q i) eqn:Q; [discriminate|].
    destruct H as [->|H]; [apply (proj2 (strip_app p i j)) in E; congruence|]. eapply IH; eauto.
  Qed.
  Lemma alt_never : forall l i, alt_tags l i <> PFail /\ alt_tags l i <> PFuel.
  Proof. induction l as [|q l IH]; intros i; cbn; [split; discriminate|]. unfold ptag. destruct (strip q i); [split; discriminate|apply IH]. Qed.
  Lemma sep_more : forall f i acc, exists cs, snd (sep_list k line f i acc) = acc ++ cs.
  Proof.
    induction f as [|f IH]; intros i acc; cbn [sep_list]; [exists []; now rewrite app_nil_r|].
    destruct (let* (j, _) := ptag (lit "/") i in tmp_op k line j) as [j t| | |]; try (exists []; now rewrite app_nil_r).
    destruct (IH j (acc ++ [t])) as (cs & ->). exists (t :: cs). now rewrite <- app_assoc.
  Qed.
  Lemma plain_op : forall t X, plain k t -> soft X -> suf (t ++ X) line -> known_op k line (t ++ X) = false.
  Proof.
    intros t X (W & _ & _ & _ & PS & PN) SX S. unfold known_op, op. destruct (spec_op (t ++ X)) as [j p| | |] eqn:E.
    - apply alt_inv in E. destruct E as [I E]. apply spec_symbols in I. cbn [is_op].
      assert (T : tg_str (create_tag line (t ++ X) p) = p) by (apply (text (t ++ X) j); [exact S|now apply create_covers|exact E]). rewrite T.
      destruct (known k p) eqn:Kp; [|reflexivity]. exfalso.
      assert (Y : exists r, t = p ++ r).
      { destruct W as [Wn _]. clear -I E SX Wn. destruct t as [|a t]; [congruence|].
        cbn in I. repeat (destruct I as [<-|I]; [first [injection E as -> E; eexists; reflexivity
          |destruct t as [|b t]; [exfalso; cbn in E; injection E as -> E; subst X; destruct SX as [SX|(c & X' & SX & [Q|[Q|Q]])]; [discriminate|injection SX as <- _; discriminate..]
                                  |injection E as -> -> E; eexists; reflexivity]]|]). destruct I. }
      destruct Y as (r & Y). exact (PS p I Kp r Y).
    - assert (Z : strip (lit "/") (t ++ X) = None).
      { destruct (strip (lit "/") (t ++ X)) as [j|] eqn:Z; [|reflexivity]. apply strip_app in Z. exfalso. unfold spec_op in E.
        apply (alt_hit specials (lit "/") (t ++ X) j) in E; auto. inm. }
      unfold path. rewrite Z. clear E Z. destruct (span (idchar k) t) as [n r] eqn:E. assert (E' := E). apply span_app in E. apply span_inv in E'. destruct E' as [A B].
      assert (P : seg_stop (r ++ X)).
      { split.
        - destruct B as [->|(c & r' & -> & Bc)]; [now apply soft_stop|]. right. do 2 eexists. split; [reflexivity|auto].
        - intros X' Q. destruct r as [|c r].
          + apply soft_58 in SX. cbn in Q. rewrite Q in SX. discriminate.
          + injection Q as -> _. destruct W as [_ W]. destruct (W 58%N) as [_ W']; [rewrite E; apply in_or_app; right; now left|]. apply W'. inm. }
      destruct n as [|c n].
      + (* the first character is not one of a name *)
        cbn in E. subst r. destruct t as [|c t]; [destruct W; congruence|]. destruct B as [B|(c' & r' & B & Bc)]; [discriminate|]. injection B as <- <-.
        unfold tmp_op, op_ident. cbn [app]. destruct (alpha k c) eqn:Al; [rewrite (alpha_id c Al) in Bc; discriminate|reflexivity].
      + destruct (alpha k c) eqn:Al.
        * assert (N : name k (c :: n)).
          { split; [eauto|]. intros x Hx. apply idchar_in. rewrite forallb_forall in A. now apply A. }
          rewrite E, <- app_assoc in *. destruct (read_names (c :: n) (r ++ X) S (names_one N) P) as (t' & -> & Et). cbn [pbind].
          destruct (sep_more (length (r ++ X)) (r ++ X) [t']) as (cs & Ec). destruct (sep_list k line (length (r ++ X)) (r ++ X) [t']) as [i ts]. cbn in Ec. subst ts.
          destruct (starts 47 i); [reflexivity|]. cbn [pbind fst]. destruct cs as [|x cs]; [|reflexivity]. cbn [is_op]. rewrite Et.
          destruct (known k (c :: n)) eqn:Kn; [|reflexivity]. destruct (PN (c :: n) r N Kn) as (x & r' & -> & Nx); [reflexivity|].
          destruct B as [B|(c' & r'' & B & Bc)]; [discriminate|]. injection B as <- <-. apply idchar_in in Nx. congruence.
        * rewrite E. unfold tmp_op, op_ident. cbn [app]. now rewrite Al.
    - now apply alt_never in E.
    - now apply alt_never in E.
  Qed.

  (** *** The whole *)
  Definition PA (c : bool) (a : arg) (s : str) : Prop := (exists ch s', s = ch :: s' /\ ms ch = false) /\
    forall X f, suf (s ++ X) line -> follow c X -> 4 * length (s ++ X) + 1 < f -> strip (lit "--") (s ++ X) = None /\
    exists i1 h a', p_arg k line f (s ++ X) = POk i1 h /\ er_arg a' = er_arg a /\
      forall m, length i1 <= m -> exists m', length X <= m' /\ infix k line m i1 h = infix k line m' X a'.
  Definition PT (t : term) (s : str) : Prop := (exists ch s', s = ch :: s' /\ ms ch = false) /\
    forall X f, suf (s ++ X) line -> soft X -> 4 * length (s ++ X) + 2 < f -> exists t', p_term k line f (s ++ X) = POk X t' /\ er_term t' = er_term t.
  Definition PTs (ts : list term) (s : str) : Prop := forall i w rest acc f, spaces w -> hard rest -> suf i line ->
    skip i = skip (s ++ w ++ rest) -> 4 * length i + 3 < f ->
    exists r ts', p_terms k line f i acc = POk r (acc ++ ts') /\ skip r = rest /\ map er_term ts' = map er_term ts.
  Definition PB (b : block) (s : str) : Prop := forall w rest f, spaces w -> hard rest -> suf (s ++ w ++ rest) line ->
    4 * length (s ++ w ++ rest) < f ->
    exists r b', p_block k line f (s ++ w ++ rest) = POk r b' /\ skip r = rest /\ er_block b' = er_block b.
  Definition PBs (bs : list block) (s : str) : Prop := forall i rest f f2, hard rest -> starts 124 rest = false -> suf i line ->
    skip i = skip (s ++ rest) -> 4 * length i < f -> 4 * length i <= f2 ->
    exists r b' bs', ws (p_block k line f) i = POk r b' /\ (forall acc, p_pipes k line f2 r acc = POk rest (acc ++ bs')) /\
      map er_block (b' :: bs') = map er_block bs /\ length r < length i /\ suf r line.

  Lemma PA_atom : forall c a s, (exists ch s', s = ch :: s' /\ ms ch = false) -> (forall r, s <> 45%N :: 45%N :: r) ->
    (forall X f, suf (s ++ X) line -> follow c X -> exists a', p_arg k line (S f) (s ++ X) = POk X a' /\ er_arg a' = er_arg a) -> PA c a s.
  Proof.
    intros c a s F D H. split; [auto|]. intros X f S FX L. split.
    - apply no_dashes; auto; [destruct F as (ch & s' & -> & _); discriminate|]. eapply follow_45; eauto.
    - destruct f as [|f]; [lia|]. destruct (H X f S FX) as (a' & -> & E). exists X, a', a'. split; [auto|]. split; [auto|]. intros m Lm. exists m. auto.
  Qed.

  Lemma read_all :
    (forall c a s, w_arg k c a s -> PA c a s) /\ (forall t s, w_term k t s -> PT t s) /\ (forall ts s, w_terms k ts s -> PTs ts s) /\
    (forall b s, w_block k b s -> PB b s) /\ (forall bs s, w_blocks k bs s -> PBs bs s).
  Proof.
    apply w_all.
    - (* plain *)
      intros t P. assert (P' := P). destruct P' as (W & Nu & D & Q & _). destruct (word_first _ W) as (c & s & E & B & M). apply PA_atom.
      + eauto.
      + intros r Er. exact (D r Er).
      + intros X f S [SX|[? _]]; [|discriminate]. rewrite p_arg_S. cbv zeta. assert (B2 := breakon_starts c (s ++ X) B).
        assert (Et : tg_str t ++ X = c :: s ++ X) by now rewrite E. rewrite <- Et in B2. destruct B2 as (-> & -> & ->).
        rewrite !no_pre by (first [apply Q; inm|rewrite E; discriminate]).
        unfold num. rewrite (read_word _ _ W SX). cbn [pbind]. rewrite Nu, (plain_op _ _ P SX S).
        destruct (read_ident_w (tg_str t) X) as (t' & -> & Tt); auto; [intros x Hx; apply Q; cbn in Hx; destruct Hx as [<-|[<-|[]]]; inm|].
        cbn [pbind]. eexists. split; [reflexivity|]. cbn. f_equal. now apply er_text.
    - (* quoted *)
      intros t s Q. assert (Q' := Q). destruct Q' as (q & Iq & Nq & ->). apply PA_atom.
      + do 2 eexists. split; [reflexivity|]. cbn in Iq. destruct Iq as [<-|[<-|[]]]; reflexivity.
      + intros r Er. cbn in Iq. destruct Iq as [<-|[<-|[]]]; discriminate.
      + intros X f S _. rewrite p_arg_S. cbv zeta.
        assert (Bq : breakon k q = false).
        { unfold breakon. rewrite (@sane_marks _ K q); [cbn in Iq; destruct Iq as [<-|[<-|[]]]; reflexivity|]. cbn in Iq; destruct Iq as [<-|[<-|[]]]; inm. }
        destruct (breakon_starts q ((tg_str t ++ [q]) ++ X) Bq) as (B1 & B2 & B3).
        assert (O : op k line (q :: (tg_str t ++ [q]) ++ X) = PErr).
        { unfold op. rewrite spec_none by (cbn in Iq; destruct Iq as [<-|[<-|[]]]; cbn; intros Z; repeat (destruct Z as [Z|Z]; [discriminate|]); destruct Z).
          unfold path. rewrite strip_none by (intros j Ej; injection Ej as Ej _; cbn in Iq; destruct Iq as [<-|[<-|[]]]; discriminate).
          unfold tmp_op, op_ident. rewrite alpha_mark'; [reflexivity|]. cbn in Iq. destruct Iq as [<-|[<-|[]]]; inm. }
        destruct (read_ident_q (tg_str t) (q :: tg_str t ++ [q]) X Q S) as (t' & Ei & Tt). cbn [app] in *.
        rewrite B1, B2, B3. assert (E36 : starts 36 (q :: (tg_str t ++ [q]) ++ X) = false) by (cbn in Iq; destruct Iq as [<-|[<-|[]]]; reflexivity).
        assert (E35 : starts 35 (q :: (tg_str t ++ [q]) ++ X) = false) by (cbn in Iq; destruct Iq as [<-|[<-|[]]]; reflexivity). rewrite E36, E35.
        assert (Nn : num k line (q :: (tg_str t ++ [q]) ++ X) = PErr).
        { unfold num, token, span1. cbn [span]. rewrite Bq. cbn [negb]. destruct (span _ _) as [a b]. cbn [pbind].
          rewrite (@sane_number _ K); [reflexivity|]. cbn in Iq. destruct Iq as [<-|[<-|[]]]; inm. }
        rewrite Nn. unfold known_op. rewrite O, Ei. cbn [pbind]. eexists. split; [reflexivity|]. cbn. f_equal. now apply er_text.
    - (* number *)
      intros z t W Nz. destruct (word_first _ W) as (c & s & E & B & M). apply PA_atom.
      + eauto.
      + intros r Er. rewrite Er in Nz. change (45%N :: 45%N :: r) with (lit "--" ++ r) in Nz. rewrite (@sane_dashes _ K) in Nz. discriminate.
      + intros X f S [SX|[? _]]; [|discriminate]. rewrite p_arg_S. cbv zeta. assert (B2 := breakon_starts c (s ++ X) B).
        assert (Et : tg_str t ++ X = c :: s ++ X) by now rewrite E. rewrite <- Et in B2. destruct B2 as (-> & -> & ->).
        rewrite !no_pre by (first [rewrite E; discriminate|intros r Er; rewrite Er in Nz; cbn [app] in Nz; rewrite (@sane_number _ K) in Nz; [discriminate|inm]]).
        unfold num. rewrite (read_word _ _ W SX). cbn [pbind]. rewrite Nz. cbn [fst snd]. eexists. split; [reflexivity|]. cbn. f_equal.
        apply er_text. apply (text (tg_str t ++ X) X); auto. now apply create_covers.
    - (* special literal *)
      intros c t C A Et. apply PA_atom.
      + do 2 eexists. split; reflexivity.
      + intros r Er. discriminate.
      + intros X f S FX. rewrite p_arg_S. cbv zeta. change (starts 123 ([35%N; c] ++ X)) with false. change (starts 58 ([35%N; c] ++ X)) with false.
        change (starts 36 ([35%N; c] ++ X)) with false. change (starts 35 ([35%N; c] ++ X)) with true.
        assert (B : breakon_s k ([35%N; c] ++ X) = false). { cbn. unfold breakon. rewrite (@sane_marks _ K) by inm. reflexivity. }
        rewrite B. cbn [tl app]. assert (S1 := suf_trans _ _ _ (suf_cons _ _) S : suf ([c] ++ X) line).
        destruct (read_name [c] X S1) as (t' & E' & Tt'); [|eapply follow_stop; eauto|].
        { split; [eauto|]. intros x [<-|[]]. left. now apply (@sane_alpha _ K). }
        cbn [app] in E'. rewrite E'. cbn [cut pbind]. rewrite Tt'. assert (BL : byte_len [c] = 1).
        { cbn. unfold len_utf8. destruct (N.ltb_spec c 128); [reflexivity|lia]. }
        rewrite BL. eexists. split; [reflexivity|]. cbn. f_equal. apply er_text. rewrite Et.
        assert (G := op_ident_good k line (c :: X) S1). rewrite E' in G. destruct G as (_ & _ & Cv).
        apply (text (35%N :: c :: X) X); [exact S| |reflexivity]. assert (Z := off_app line [35%N] (c :: X) S). cbn in Z.
        rewrite (covers_s _ _ _ _ Cv). replace (N.of_nat (off (c :: X)) - 1)%N with (N.of_nat (off (35%N :: c :: X))) by lia.
        eapply set_start_covers; exact Cv.
    - (* variable *)
      intros t N. apply PA_atom.
      + do 2 eexists. split; reflexivity.
      + intros r Er. discriminate.
      + intros X f S FX. rewrite p_arg_S. cbv zeta. cbn [app] in *. change (starts 123 (36%N :: tg_str t ++ X)) with false.
        change (starts 58 (36%N :: tg_str t ++ X)) with false. change (starts 36 (36%N :: tg_str t ++ X)) with true.
        assert (B : breakon_s k (36%N :: tg_str t ++ X) = false). { cbn. unfold breakon. rewrite (@sane_marks _ K) by inm. reflexivity. }
        rewrite B. unfold var. cbn [pchar]. rewrite N.eqb_refl. cbn [pbind].
        destruct (read_name (tg_str t) X) as (t' & -> & Tt); auto; [exact (suf_trans _ _ _ (suf_cons _ _) S)|eapply follow_stop; eauto|].
        cbn [pbind]. eexists. split; [reflexivity|]. cbn. f_equal. now apply er_text.
    - (* braces *)
      intros t bs out s so Hb IH Ho. split; [do 2 eexists; split; reflexivity|]. intros X f S FX L. split; [reflexivity|].
      destruct f as [|f]; [lia|]. rewrite p_arg_S. cbv zeta. rewrite <- !app_assoc in *.
      change (starts 123 (lit "{" ++ s ++ lit "}" ++ so ++ X)) with true.
      assert (S1 := suf_trans _ _ _ (suf_cons _ _) S : suf (s ++ lit "}" ++ so ++ X) line).
      assert (R : hard (lit "}" ++ so ++ X)) by (right; do 2 eexists; split; [reflexivity|now right]).
      assert (EB : empty_braces (lit "{" ++ s ++ lit "}" ++ so ++ X) = false).
      { cbn [empty_braces app lit]. change (starts 125 (skip (s ++ lit "}" ++ so ++ X)) = false).
        assert (Z : exists w b s1 s2, s = w ++ s1 ++ s2 /\ spaces w /\ w_block k b s1) by (destruct Hb; eauto 10).
        destruct Z as (w & b & s1 & s2 & -> & Hw & Hs1). destruct (block_first b s1 Hs1) as (c & s3 & -> & Mc & Nc & _).
        rewrite <- !app_assoc, skip_spaces by auto. cbn [app]. rewrite skip_cons by auto. cbn. now apply N.eqb_neq. }
      rewrite EB. change (pchar 123 (lit "{" ++ s ++ lit "}" ++ so ++ X)) with (POk (s ++ lit "}" ++ so ++ X) tt). cbn [pbind].
      destruct f as [|f]; [len|]. unfold ws at 1. rewrite p_expr_S. cbv zeta.
      destruct (IH (skip (s ++ lit "}" ++ so ++ X)) (lit "}" ++ so ++ X) f f R eq_refl) as (r & b' & bs' & E1 & E2 & E3 & E4 & E5).
      { exact (suf_trans _ _ _ (suf_skip _) S1). }
      { apply skip_idem. }
      { pose proof (skip_len (s ++ lit "}" ++ so ++ X)). len. }
      { pose proof (skip_len (s ++ lit "}" ++ so ++ X)). len. }
      rewrite E1. cbn [pbind]. rewrite E2. cbn [pbind].
      unfold ws at 1. rewrite hard_skip by auto. destruct f as [|f]; [len|]. rewrite no_block by auto. cbn [pbind].
      rewrite hard_skip by auto. change (pchar 125 (lit "}" ++ so ++ X)) with (POk (so ++ X) tt). cbn [pbind cut].
      destruct (read_ty out so X Ho) as (o' & E6 & E7); [exact (suf_trans _ _ _ (suf_cons _ _) (suf_trans _ _ _ (ex_intro _ s eq_refl) S1))|eapply follow_stop; eauto|eapply follow_58; eauto|].
      rewrite E6. cbn [pbind ex_tag ex_blocks]. eexists X, _, _. split; [reflexivity|]. split; [|intros m Lm; exists m; split; [auto|reflexivity]].
      cbn [er_arg er_expr]. do 2 f_equal; [exact E3|exact E7].
    - (* dot *)
      intros t o l r out s sr so Hl [(ch & s' & -> & Mc) IH] Eo Hr Ho. split; [do 2 eexists; split; [reflexivity|auto]|]. intros X f S FX L. rewrite <- !app_assoc in *.
      assert (F0 : follow true (lit "." ++ sr ++ so ++ X)) by (right; split; [auto|]; eexists; reflexivity).
      destruct (IH (lit "." ++ sr ++ so ++ X) f S F0) as (D & i1 & h & a' & E1 & E2 & E3); [len|].
      split; [exact D|].
      assert (S2 := suf_trans _ _ _ (ex_intro _ (ch :: s') eq_refl) S : suf (lit "." ++ sr ++ so ++ X) line).
      assert (S3 := suf_trans _ _ _ (suf_cons _ _) S2 : suf (sr ++ so ++ X) line).
      assert (S4 := suf_trans _ _ _ (ex_intro _ sr eq_refl) S3 : suf (so ++ X) line).
      assert (ST : stop (so ++ X)).
      { destruct out as [o2|]; cbn in Ho; [destruct Ho as [_ ->]; apply stop_colon|subst so; eapply follow_stop; eauto]. }
      assert (RH : exists r', rhs_ident k line (sr ++ so ++ X) = POk (so ++ X) r' /\ tg_str r' = tg_str r).
      { unfold rhs_ident. destruct Hr as [[N ->]|Q].
        - destruct N as [(c & s2 & E & A) N']. assert (Nm : name k (tg_str r)) by (split; eauto).
          assert (Z : forall q, In q marks -> starts q (tg_str r ++ so ++ X) = false).
          { intros q Iq. rewrite E. cbn. apply N.eqb_neq. intros ->. now apply (alpha_mark q A). }
          rewrite !Z by inm. apply read_name; auto.
        - assert (Z : starts 39 (sr ++ so ++ X) || starts 34 (sr ++ so ++ X) = true).
          { destruct Q as (q & Iq & _ & ->). cbn in Iq. destruct Iq as [<-|[<-|[]]]; reflexivity. }
          rewrite Z. now apply read_ident_q. }
      destruct RH as (r' & RH & Tr).
      destruct (read_ty out so X Ho S4) as (o' & E6 & E7); [eapply follow_stop; eauto|eapply follow_58; eauto|].
      exists i1, h, (AExpr (Expr (dot_tag line a' r' o') [BDot (create_tag line (lit "." ++ sr ++ so ++ X) (lit ".")) a' r' o'] None)).
      split; [exact E1|]. split.
      + cbn [er_arg er_expr map er_block]. rewrite E2, E7, (er_text r r' Tr). do 3 f_equal. f_equal. apply er_text. rewrite Eo.
        apply (text (lit "." ++ sr ++ so ++ X) (sr ++ so ++ X)); [exact S2| |reflexivity]. now apply create_covers.
      + intros m Lm. destruct (E3 m Lm) as (m' & Lm' & ->). destruct m' as [|m']; [cbn in Lm'; lia|]. exists m'. split; [len|].
        cbn [infix]. change (starts 46 (lit "." ++ sr ++ so ++ X)) with true. unfold ptag. rewrite (proj2 (strip_app (lit ".") _ (sr ++ so ++ X)) eq_refl).
        cbn [pbind]. rewrite RH. cbn [cut pbind]. rewrite E6. reflexivity.
    - (* argument *)
      intros c a s Ha [F IH]. split; [exact F|]. intros X f S SX L. destruct f as [|f]; [lia|].
      destruct (IH X f S) as (D & i1 & h & a' & E1 & E2 & E3); [now left|lia|].
      rewrite p_term_S, D, E1. cbn [pbind]. destruct (E3 (length i1) (le_n _)) as (m' & _ & ->).
      assert (Z : infix k line m' X a' = POk X a') by (destruct m'; cbn [infix]; now rewrite soft_46 by auto). rewrite Z.
      eexists. split; [reflexivity|]. cbn. now rewrite E2.
    - (* flag *)
      intros t W Q. split; [do 2 eexists; split; reflexivity|]. intros X f S SX L. destruct f as [|f]; [lia|].
      rewrite <- !app_assoc in *. rewrite p_term_S, (proj2 (strip_app (lit "--") _ (tg_str t ++ X)) eq_refl). unfold flag, ptag.
      rewrite (proj2 (strip_app (lit "--") _ (tg_str t ++ X)) eq_refl). cbn [pbind].
      destruct (read_ident_w (tg_str t) X W Q SX) as (t' & -> & Tt); [exact (suf_trans _ _ _ (ex_intro _ (lit "--") eq_refl) S)|].
      cbn [pbind]. eexists. split; [reflexivity|]. cbn. f_equal. now apply er_text.
    - intros t s Q. split; [do 2 eexists; split; reflexivity|]. intros X f S SX L. destruct f as [|f]; [lia|].
      rewrite <- !app_assoc in *. rewrite p_term_S, (proj2 (strip_app (lit "--") _ (s ++ X)) eq_refl). unfold flag, ptag.
      rewrite (proj2 (strip_app (lit "--") _ (s ++ X)) eq_refl). cbn [pbind].
      destruct (read_ident_q (tg_str t) s X Q) as (t' & -> & Tt); [exact (suf_trans _ _ _ (ex_intro _ (lit "--") eq_refl) S)|].
      cbn [pbind]. eexists. split; [reflexivity|]. cbn. f_equal. now apply er_text.
    - (* no terms *)
      intros i w rest acc f W R S E L. cbn [app] in E. rewrite skip_spaces, (hard_skip rest) in E by auto.
      do 3 (destruct f as [|f]; [lia|]). exists i, []. rewrite app_nil_r. split; [|auto]. eapply no_terms; eauto.
    - (* a term and more *)
      intros t ts w0 s s' G Ht [(ch & s2 & -> & Mc) IHt] Hts IHts i w rest acc f W R S E L. destruct f as [|f]; [lia|].
      rewrite <- !app_assoc, skip_spaces in E by apply G. cbn [app] in E. rewrite skip_cons in E by auto.
      assert (Sk := suf_trans _ _ _ (suf_skip i) S). rewrite E in Sk.
      assert (SX := terms_soft ts s' w rest Hts W R).
      destruct (IHt (s' ++ w ++ rest) f Sk SX) as (t' & E1 & E2); [len|]. cbn [app] in E1.
      rewrite p_terms_S. unfold ws. rewrite E, E1. cbn [pbind].
      assert (Ln : length (skip (s' ++ w ++ rest)) < length i) by (pose proof (skip_len (s' ++ w ++ rest)); len).
      destruct (Nat.eqb_spec (length (skip (s' ++ w ++ rest))) (length i)); [lia|].
      destruct (IHts (skip (s' ++ w ++ rest)) w rest (acc ++ [t']) f W R) as (r & ts' & E3 & E4 & E5).
      + refine (suf_trans _ _ _ (suf_skip _) (suf_trans _ _ _ _ Sk)). exists (ch :: s2). reflexivity.
      + apply skip_idem.
      + lia.
      + rewrite E3. exists r, (t' :: ts'). rewrite <- app_assoc. split; [reflexivity|]. split; [auto|]. cbn. now rewrite E2, E5.
    - (* an op at the end *)
      intros et t ts out w0 s G Hb IH Kn Nn i w rest acc f W R S E L.
      rewrite <- !app_assoc, skip_spaces in E by apply G. assert (Hb' := Hb).
      inversion Hb' as [o ts0 i0 out0 si w1 so sout sts Hi Hn Hg Ho Hout Hts Eo Es]; subst. clear Hb'. cbn in Hi. subst si. rewrite (Hn eq_refl) in *. clear Hn Hg.
      cbn [app] in *. destruct Ho as [-> Ho]. destruct (single_first _ Ho) as (ch & s2 & Ec & Oc).
      assert (Sf := terms_soft ts sts w rest Hts W R).
      destruct (ty_op_stop out sout _ Hout Sf) as (P1 & P2 & P3).
      assert (Es : (tg_str t ++ sout ++ sts) ++ w ++ rest = tg_str t ++ sout ++ sts ++ w ++ rest) by now rewrite <- !app_assoc.
      rewrite Es in E. assert (Ec' : tg_str t ++ sout ++ sts ++ w ++ rest = ch :: s2 ++ sout ++ sts ++ w ++ rest) by now rewrite Ec.
      assert (E' : skip i = tg_str t ++ sout ++ sts ++ w ++ rest).
      { rewrite E, Ec', skip_cons; [reflexivity|]. now apply break_ms, op_char_break. }
      clear E. do 6 (destruct f as [|f]; [exfalso; rewrite Ec' in E'; len|]). assert (Sk := suf_trans _ _ _ (suf_skip i) S). rewrite E' in Sk.
      rewrite p_terms_S. unfold ws at 1. rewrite E', p_term_S.
      assert (D : strip (lit "--") (tg_str t ++ sout ++ sts ++ w ++ rest) = None).
      { apply no_dashes; [|rewrite Ec; discriminate|exact P2]. intros r Er. rewrite Er in Ho. destruct Ho as [Ho|Ho].
        - cbn in Ho. repeat (destruct Ho as [Ho|Ho]; [discriminate|]). destruct Ho.
        - destruct (names_first _ Ho) as (c & s3 & E & A). injection E as <- _. apply (alpha_mark _ A). inm. }
      rewrite D, p_arg_S. cbv zeta.
      assert (B := breakon_starts ch (s2 ++ sout ++ sts ++ w ++ rest) (op_char_break _ Oc)). rewrite <- Ec' in B. destruct B as (-> & -> & ->).
      assert (Q : forall q, In q (lit "|{}:$#""'") -> starts q (tg_str t ++ sout ++ sts ++ w ++ rest) = false).
      { intros q Iq. rewrite Ec'. cbn. apply N.eqb_neq. intros ->. now apply (op_char_not q Oc). }
      rewrite !Q by inm. rewrite (op_token _ _ Ho P3 Nn).
      destruct (read_op (OpSingle t) (tg_str t) _ (conj eq_refl Ho) Sk P1) as (o' & E1 & E2).
      assert (KO : known_op k line (tg_str t ++ sout ++ sts ++ w ++ rest) = true).
      { unfold known_op. rewrite E1. destruct o' as [t'|]; [|discriminate]. cbn in E2 |- *. injection E2 as ->. exact Kn. }
      rewrite KO.
      destruct (IH w rest (Datatypes.S (Datatypes.S (Datatypes.S f))) W R) as (r & b' & E3 & E4 & E5); [rewrite Es; exact Sk|rewrite Es; len|].
      rewrite Es in E3. unfold ws at 1. assert (Sk' : skip (tg_str t ++ sout ++ sts ++ w ++ rest) = tg_str t ++ sout ++ sts ++ w ++ rest) by (rewrite <- E'; apply skip_idem).
      rewrite Sk', E3. cbn [pbind]. rewrite E4.
      assert (Z : forall m a, infix k line m rest a = POk rest a) by (intros m a; destruct m; cbn [infix]; now rewrite soft_46 by now apply hard_soft). rewrite Z.
      cbn [pbind]. rewrite hard_skip by auto. assert (Ln : length rest < length i) by (rewrite Ec' in E'; len).
      destruct (Nat.eqb_spec (length rest) (length i)); [lia|]. rewrite (no_terms _ rest rest) by (auto using hard_skip).
      exists rest. eexists. split; [reflexivity|]. split; [now apply hard_skip|]. cbn. cbn in E5. now rewrite E5.
    - (* block *)
      intros o ts i out si w0 so sout sts Hi Hn Hg Ho Hout Hts IH w rest f W R S L. destruct f as [|f]; [lia|]. rewrite <- !app_assoc in *.
      assert (Sf := terms_soft ts sts w rest Hts W R). destruct (ty_op_stop out sout _ Hout Sf) as (P1 & P2 & P3).
      destruct (op_first o so Ho) as (ch & s2 & Ec & Oc). assert (Mc := break_ms _ (op_char_break _ Oc)).
      set (Y := sout ++ sts ++ w ++ rest) in *.
      assert (Sy : suf (so ++ Y) line) by (eapply suf_trans; [|exact S]; exists (si ++ w0); now rewrite <- app_assoc).
      assert (T : exists i', opt_ty k line (si ++ w0 ++ so ++ Y) = POk (w0 ++ so ++ Y) i' /\ option_map er_tag i' = option_map er_tag i).
      { destruct i as [ti|].
        - apply read_ty; auto; [apply soft_stop, gap_soft, Hg; discriminate|apply soft_58, gap_soft, Hg; discriminate].
        - cbn in Hi. subst si. rewrite (Hn eq_refl). cbn [app]. rewrite ty_none; [eauto|]. rewrite Ec. cbn. apply N.eqb_neq. intros ->.
          apply (op_char_not _ Oc). inm. }
      destruct T as (i' & E1 & E2). rewrite p_block_S, E1. cbn [pbind].
      assert (Sk : skip (w0 ++ so ++ Y) = so ++ Y).
      { assert (W0 : spaces w0) by (destruct i as [ti|]; [apply Hg; discriminate|rewrite (Hn eq_refl); intros c []]). rewrite skip_spaces by auto. rewrite Ec. cbn [app]. now apply skip_cons. }
      rewrite Sk. destruct (read_op o so Y Ho Sy P1) as (o' & -> & E3). cbn [pbind]. subst Y.
      assert (Sy2 := suf_trans _ _ _ (ex_intro _ so eq_refl) Sy : suf (sout ++ sts ++ w ++ rest) line).
      destruct (read_ty out sout (sts ++ w ++ rest) Hout Sy2) as (out' & E4 & E5); [now apply soft_stop|now apply soft_58|]. rewrite E4. cbn [pbind].
      destruct (IH (sts ++ w ++ rest) w rest [] f W R) as (r & ts' & E6 & E7 & E8); [exact (suf_trans _ _ _ (ex_intro _ sout eq_refl) Sy2)|reflexivity|rewrite Ec in L; len|].
      rewrite E6. cbn [pbind app]. exists r. eexists. split; [reflexivity|]. split; [auto|]. cbn. now rewrite E2, E3, E5, E8.
    - (* one block *)
      intros b w s w' Hw Hb IH Hw' i rest f f2 R N S E L L2. rewrite <- !app_assoc, skip_spaces in E by auto.
      destruct (block_first b s Hb) as (c & s2 & Ec & Mc & _). assert (E' : skip i = s ++ w' ++ rest).
      { rewrite E, Ec. cbn [app]. now apply skip_cons. }
      assert (Sk := suf_trans _ _ _ (suf_skip i) S). rewrite E' in Sk.
      destruct (IH w' rest f Hw' R Sk) as (r & b' & E1 & E2 & E3); [clear E; len|].
      exists rest, b', []. unfold ws. rewrite E', E1. cbn [pbind]. rewrite E2. split; [reflexivity|]. split.
      + intros acc. destruct f2 as [|f2]; [clear E; rewrite Ec in E'; len|]. rewrite p_pipes_S, N, app_nil_r. reflexivity.
      + split; [cbn; now rewrite E3|]. split; [clear E; rewrite Ec in E'; len|]. eapply suf_trans; [|exact Sk]. exists (s ++ w'). now rewrite <- app_assoc.
    - (* more blocks *)
      intros b bs w s w' s' Hw Hb IH Hw' Hbs IHbs i rest f f2 R N S E L L2. rewrite <- !app_assoc, skip_spaces in E by auto.
      destruct (block_first b s Hb) as (c & s2 & Ec & Mc & _). assert (E' : skip i = s ++ w' ++ lit "|" ++ s' ++ rest).
      { rewrite E, Ec. cbn [app]. now apply skip_cons. }
      clear E. assert (Sk := suf_trans _ _ _ (suf_skip i) S). rewrite E' in Sk.
      assert (R' : hard (lit "|" ++ s' ++ rest)) by (right; do 2 eexists; split; [reflexivity|now left]).
      destruct (IH w' (lit "|" ++ s' ++ rest) f Hw' R' Sk) as (r & b' & E1 & E2 & E3); [len|].
      assert (Sr : suf (lit "|" ++ s' ++ rest) line) by (eapply suf_trans; [|exact Sk]; exists (s ++ w'); now rewrite <- app_assoc).
      destruct f2 as [|f2]; [rewrite Ec in E'; len|].
      destruct (IHbs (s' ++ rest) rest f2 f2 R N) as (r2 & b2 & bs2 & E4 & E5 & E6 & E7 & E8); [exact (suf_trans _ _ _ (suf_cons _ _) Sr)|reflexivity|rewrite Ec in E'; len|rewrite Ec in E'; len|].
      exists (lit "|" ++ s' ++ rest), b', (b2 :: bs2). unfold ws. rewrite E', E1. cbn [pbind]. rewrite E2. split; [reflexivity|]. split; [|split; [|split]].
      + intros acc. rewrite p_pipes_S. change (starts 124 (lit "|" ++ s' ++ rest)) with true. cbn [tl app lit]. rewrite E4. cbn [pbind].
        rewrite E5, <- app_assoc. reflexivity.
      + cbn [map]. now rewrite E3, <- E6.
      + rewrite Ec in E'. len.
      + exact Sr.
  Qed.
End W.
