(** The words of a parsed line lie one after the other. *)
From Coq Require Import String List ZArith NArith Bool Arith Lia.
From Verif Require Import Model.Base Model.Utf Model.Ast Model.Parse Model.Highlight Spec.ParseSpec Spec.LexSpec Proofs.ParseSpanProofs.
Import ListNotations.

Section S.
  Variable k : lang.
  Variable line : str.
  Notation off := (offset line).
  Notation ord := (in_order line).

  Lemma stands_wide : forall lo hi lo' hi' x txt, stands line lo hi x txt -> lo' <= lo -> hi <= hi' -> stands line lo' hi' x txt.
  Proof.
    intros lo hi lo' hi' x txt (a & pre & post & b & A & B & C & D & E & F & G & H) L1 L2. exists a, pre, post, b. repeat split; auto; lia.
  Qed.
  Lemma stands_le : forall lo hi x txt, stands line lo hi x txt -> lo <= hi.
  Proof. intros lo hi x txt (a & pre & post & b & A & B & C & D & E & F & G & H). lia. Qed.
  Lemma ord_le : forall lo hi l, ord lo hi l -> lo <= hi.
  Proof. intros lo hi l H. induction H; auto. apply stands_le in H. lia. Qed.
  Lemma ord_wide : forall lo hi lo' hi' l, ord lo hi l -> lo' <= lo -> hi <= hi' -> ord lo' hi' l.
  Proof.
    intros lo hi lo' hi' l H. revert lo' hi'. induction H; intros lo' hi' L1 L2; [constructor; lia|].
    econstructor; [eapply stands_wide; [eassumption|auto|apply le_n]|]. apply IHin_order; auto.
  Qed.
  Lemma ord_app : forall lo m hi a b, ord lo m a -> ord m hi b -> ord lo hi (a ++ b).
  Proof.
    intros lo m hi a b H K. induction H; cbn.
    - eapply ord_wide; [exact K|auto|apply le_n].
    - econstructor; [eassumption|]. apply IHin_order, K.
  Qed.
  Lemma ord_one : forall lo hi x txt, stands line lo hi x txt -> ord lo hi [x].
  Proof. intros. econstructor; [eassumption|]. constructor. apply le_n. Qed.

  Lemma off_at : forall q i, line = q ++ i -> off i = byte_len q.
  Proof. intros q i E. unfold offset. rewrite E, byte_len_app. lia. Qed.
  Lemma stands_at : forall ty i pre t post j tg, suf i line -> i = pre ++ t ++ post ++ j -> covers line (t ++ post ++ j) (post ++ j) tg ->
    around ty pre post -> (post = [] -> t <> []) -> stands line (off i) (off j) (ty, tg) (pre ++ t ++ post) /\ tg_str tg = t.
  Proof.
    intros ty i pre t post j tg (q & E) I C A N.
    assert (St : suf (t ++ post ++ j) line). { exists (q ++ pre). rewrite E, I. now rewrite <- app_assoc. }
    assert (Tx : tg_str tg = t). { rewrite C. now apply mk_text. }
    split; [|exact Tx]. exists q, pre, post, j. cbn [fst snd]. rewrite Tx.
    assert (O1 : off (t ++ post ++ j) = byte_len q + byte_len pre).
    { rewrite (off_at (q ++ pre)); [apply byte_len_app|]. rewrite E, I. now rewrite <- app_assoc. }
    assert (O2 : off (post ++ j) = byte_len q + byte_len pre + byte_len t).
    { rewrite (off_app line t (post ++ j) St). lia. }
    assert (O3 : off j = byte_len q + (byte_len pre + (byte_len t + byte_len post))).
    { rewrite (off_app line post j); [lia|]. eapply suf_trans; [|exact St]. now exists t. }
    rewrite (off_at q i E), O3, !byte_len_app. rewrite (covers_s _ _ _ _ C), (covers_e _ _ _ _ C), !Nat2N.id, O1, O2.
    split; [rewrite E, I, <- !app_assoc; reflexivity|]. repeat split; auto; lia.
  Qed.

  (** A word with nothing around it. *)
  Lemma bare : forall ty i j t, suf i line -> suf j i -> length j < length i -> covers line i j t -> around ty [] [] -> ord (off i) (off j) [(ty, t)].
  Proof.
    intros ty i j t H (p & E) L C A. eapply ord_one. destruct (stands_at ty i [] p [] j t) as [X _]; auto.
    - cbn. now subst.
    - intros _ ->. cbn in E. subst. lia.
    - exact X.
  Qed.

  Lemma opt_ty_lex : forall i, suf i line -> good false (fun i j o => ord (off i) (off j) (ty_words o)) i (opt_ty k line i).
  Proof.
    intros i H. unfold opt_ty. assert (G := pchar_good 58 i). destruct (pchar 58 i) as [j u| | |]; cbn [pbind popt].
    - destruct G as (S & L & E). assert (Hj : suf j line) by (eapply suf_trans; eauto). assert (G := op_ident_good k line j Hj).
      destruct (op_ident k line j) as [j' t| | |]; cbn in *; auto. destruct G as (S' & L' & C). split; [eapply suf_trans; eauto|]. split; [auto|].
      eapply ord_wide; [apply (bare NType j j' t); auto; now split|now apply off_suf|apply le_n].
    - cbn. split; [apply suf_refl|]. split; [auto|]. constructor. apply le_n.
    - exact I.
    - destruct G.
  Qed.

  Lemma sep_list_lex : forall fuel i0 i ts, suf i0 line -> suf i i0 -> ord (off i0) (off i) (map (fun t => (NCommand, t)) ts) ->
    suf (fst (sep_list k line fuel i ts)) i /\
    ord (off i0) (off (fst (sep_list k line fuel i ts))) (map (fun t => (NCommand, t)) (snd (sep_list k line fuel i ts))).
  Proof.
    induction fuel as [|fuel IH]; intros i0 i ts H S C; cbn [sep_list]; [cbn; split; [apply suf_refl|auto]|].
    assert (G := ptag_good (lit "/") i). destruct (ptag (lit "/") i) as [j u| | |]; cbn [pbind]; try (cbn; split; [apply suf_refl|auto]; fail).
    destruct G as (S1 & _ & _); [discriminate|]. assert (Hj : suf j line) by (exact (suf_trans _ _ _ S1 (suf_trans _ _ _ S H))).
    assert (Hi : suf i line) by (eapply suf_trans; eauto).
    assert (G := tmp_op_good k line j Hj). destruct (tmp_op k line j) as [j' t'| | |]; try (cbn; split; [apply suf_refl|auto]; fail).
    destruct G as (S2 & L2 & C2). destruct (IH i0 j' (ts ++ [t'])) as [A B]; auto.
    - exact (suf_trans _ _ _ S2 (suf_trans _ _ _ S1 S)).
    - rewrite map_app. eapply ord_app; [exact C|]. cbn [map]. eapply ord_wide; [apply (bare NCommand j j' t'); auto; now split|now apply off_suf|apply le_n].
    - split; [|exact B]. exact (suf_trans _ _ _ A (suf_trans _ _ _ S2 S1)).
  Qed.
  Lemma path_lex : forall i, suf i line ->
    good true (fun i j p => ord (off i) (off j) (map (fun t => (NCommand, t)) (fst p))) i (path k line i).
  Proof.
    intros i H. unfold path.
    assert (X : exists i' r, (match strip (lit "/") i with Some j => (j, true) | None => (i, false) end) = (i', r) /\ suf i' i).
    { destruct (strip (lit "/") i) as [j|] eqn:E; do 2 eexists; (split; [reflexivity|]); [|apply suf_refl]. apply strip_app in E. subst. now exists (lit "/"). }
    destruct X as (i' & r & -> & S). assert (Hi : suf i' line) by (eapply suf_trans; eauto).
    assert (G := tmp_op_good k line i' Hi). destruct (tmp_op k line i') as [j t| | |]; try (cbn in *; tauto). destruct G as (S1 & L1 & C1). cbn [pbind].
    assert (T : ord (off i') (off j) (map (fun t => (NCommand, t)) [t])) by (apply bare; auto; now split).
    assert (G := sep_list_lex (length j) i' j [t] Hi S1 T). destruct (sep_list k line (length j) j [t]) as [j' cs]. cbn [fst snd] in G. destruct G as [A B].
    destruct (starts 47 j'); cbn; [auto|]. split; [exact (suf_trans _ _ _ A (suf_trans _ _ _ S1 S))|]. split.
    - apply suf_len in A. apply suf_len in S. cbn in L1. lia.
    - eapply ord_wide; [exact B|now apply off_suf|apply le_n].
  Qed.
  Lemma op_lex : forall i, suf i line -> good true (fun i j o => ord (off i) (off j) (op_words o)) i (op k line i).
  Proof.
    intros i H. unfold op. assert (G := spec_op_good i).
    assert (P : good true (fun i j o => ord (off i) (off j) (op_words o)) i
       (let* (j, p) := path k line i in POk j match fst p with [t] => OpSingle t | cs => OpPath cs 0 (snd p) end)).
    { eapply good_bind; [now apply path_lex|]. intros j p S L B. cbn. split; [auto|]. split; [auto|]. cbv beta in B.
      destruct (fst p) as [|t [|t' ts]]; exact B. }
    destruct (spec_op i) as [j t| | |]; auto. destruct G as (S & L & E). cbn. split; [auto|]. split; [auto|].
    apply bare; auto; [|now split]. now apply create_covers.
  Qed.

  Definition named (i j : str) (t : tag) : Prop := exists pre post, i = pre ++ tg_str t ++ post ++ j /\
    (pre = [] /\ post = [] \/ exists q, quote q /\ pre = [q] /\ post = [q]) /\ (post = [] -> tg_str t <> []) /\
    covers line (tg_str t ++ post ++ j) (post ++ j) t.
  Lemma ident_named : forall i, suf i line -> good true named i (ident k line i).
  Proof.
    intros i H. unfold ident. destruct (starts 58 i); [exact I|].
    assert (Q : forall q, quote q -> good true named i (let* (j, t) := quoted q i in POk j (create_tag line (tl i) t))).
    { intros q Hq. eapply good_bind; [apply quoted_good|]. intros j t S L E. cbv beta in E. cbn. split; [auto|]. split; [auto|]. subst i. cbn [tl].
      assert (H' : suf (t ++ q :: j) line) by (eapply suf_trans; [apply suf_cons|exact H]).
      assert (C : covers line (t ++ q :: j) (q :: j) (create_tag line (t ++ q :: j) t)) by now apply create_covers.
      assert (Tx : tg_str (create_tag line (t ++ q :: j) t) = t) by (rewrite C; now apply mk_text).
      exists [q], [q]. rewrite Tx. split; [reflexivity|]. split; [right; now exists q|]. split; [discriminate|exact C]. }
    destruct (starts 34 i); [apply Q; now left|]. destruct (starts 39 i); [apply Q; now right|].
    eapply good_bind; [apply token_good|]. intros j t S L E. cbv beta in E. cbn. split; [auto|]. split; [auto|].
    assert (C : covers line i j (create_tag line i t)) by now apply create_covers. subst i.
    assert (Tx : tg_str (create_tag line (t ++ j) t) = t) by (rewrite C; now apply mk_text).
    exists [], []. rewrite Tx. split; [reflexivity|]. split; [now left|]. split; [|exact C]. intros _ ->. cbn in L. lia.
  Qed.
  Lemma named_lex : forall i j t, suf i line -> named i j t -> ord (off i) (off j) [(NIdent, t)].
  Proof.
    intros i j t H (pre & post & E & A & N & C). destruct (stands_at NIdent i pre (tg_str t) post j t) as [X _]; auto.
    eapply ord_one; exact X.
  Qed.
  Lemma flag_lex : forall i, suf i line -> good true (fun i j t => ord (off i) (off j) [(NFlag, t)]) i (flag k line i).
  Proof.
    intros i H. unfold flag. eapply good_bind; [apply ptag_good; discriminate|]. intros j u S L E. cbv beta in E. destruct E as [_ E].
    assert (Hj : suf j line) by (eapply suf_trans; eauto). assert (G := ident_named j Hj).
    destruct (ident k line j) as [j' t| | |]; cbn in *; auto. destruct G as (S' & L' & (pre & post & E' & A & N & C)).
    split; [eapply suf_trans; eauto|]. split; [lia|]. destruct (stands_at NFlag i (lit "--" ++ pre) (tg_str t) post j' t) as [X _]; auto.
    - now rewrite E, E', <- app_assoc.
    - destruct A as [[-> ->]|(q & Q & -> & ->)]; [left; auto|right; exists q; auto].
    - eapply ord_one; exact X.
  Qed.
  Lemma rhs_lex : forall i, suf i line -> good true (fun i j t => ord (off i) (off j) [(NIdent, t)]) i (rhs_ident k line i).
  Proof.
    intros i H. unfold rhs_ident. destruct (starts 39 i || starts 34 i).
    - eapply good_imp; [|now apply ident_named]. intros j t S N. now apply named_lex.
    - assert (G := op_ident_good k line i H). destruct (op_ident k line i) as [j t| | |]; cbn in *; auto. destruct G as (S & L & C).
      split; [auto|]. split; [auto|]. apply bare; auto. now left.
  Qed.

  Definition arg_lx (i j : str) (a : arg) : Prop := ord (off i) (off j) (arg_words a).
  Lemma infix_lex : forall fuel i0 i lhs, suf i0 line -> suf i i0 -> length i <= fuel -> arg_lx i0 i lhs ->
    match infix k line fuel i lhs with
    | POk j a => suf j i /\ arg_lx i0 j a
    | PFuel => False
    | _ => True
    end.
  Proof.
    induction fuel as [|fuel IH]; intros i0 i lhs H0 S L A; cbn [infix].
    - destruct i; [|cbn in L; lia]. cbn. split; [apply suf_refl|apply A].
    - destruct (starts 46 i) eqn:St; [|split; [apply suf_refl|apply A]].
      assert (Hi : suf i line) by (eapply suf_trans; eauto).
      assert (G := ptag_good (lit ".") i). destruct (ptag (lit ".") i) as [j u| | |]; cbn [pbind]; auto; [|now apply G].
      destruct G as (S1 & L1 & -> & E1); [discriminate|]. assert (Hj : suf j line) by (eapply suf_trans; eauto).
      assert (G := good_cut _ _ _ _ _ (rhs_lex j Hj)). destruct (cut (rhs_ident k line j)) as [j2 r| | |]; cbn [pbind]; [|exact I|exact I|exact G].
      destruct G as (S2 & L2 & C2). assert (Hj2 : suf j2 line) by (eapply suf_trans; eauto).
      assert (G := opt_ty_lex j2 Hj2). destruct (opt_ty k line j2) as [j3 out| | |]; cbn [pbind]; [|exact I|exact I|exact G].
      destruct G as (S3 & _ & C3). assert (S30 : suf j3 i0) by exact (suf_trans _ _ _ S3 (suf_trans _ _ _ S2 (suf_trans _ _ _ S1 S))).
      match goal with |- match infix _ _ _ _ ?a with _ => _ end => assert (X := IH i0 j3 a H0 S30) end.
      assert (W : arg_lx i0 j3 (AExpr (Expr (dot_tag line lhs r out) [BDot (create_tag line i (lit ".")) lhs r out] None))).
      { unfold arg_lx. cbn [arg_words expr_words flat_map block_words ty_words]. rewrite !app_nil_r.
        eapply ord_app; [exact A|]. cbn [app]. change ((NCommand, create_tag line i (lit ".")) :: (NIdent, r) :: ty_words out)
          with ([(NCommand, create_tag line i (lit "."))] ++ [(NIdent, r)] ++ ty_words out).
        eapply ord_app; [apply (bare NCommand i j); auto; [|now split]; now apply create_covers|]. eapply ord_app; [exact C2|exact C3]. }
      assert (Lf : length j3 <= fuel) by (apply suf_len in S2, S3; lia).
      specialize (X Lf W).
      match goal with |- match infix _ _ _ _ ?a with _ => _ end => destruct (infix k line fuel j3 a) as [j4 a4| | |] end; auto.
      destruct X as [X1 X2]. split; [|auto]. exact (suf_trans _ _ _ X1 (suf_trans _ _ _ S3 (suf_trans _ _ _ S2 S1))).
  Qed.

  (** ** The whole parser *)
  Definition expr_lx (i j : str) (e : expr) : Prop := ord (off i) (off j) (expr_words e) /\ ex_out e = None.
  Definition block_lx (i j : str) (b : block) : Prop := ord (off i) (off j) (block_words b).
  Definition term_lx (i j : str) (t : term) : Prop := ord (off i) (off j) (term_words t).

  Lemma lx_wide : forall l i i' j j', suf i line -> suf i' i -> suf j i' -> suf j' j -> ord (off i') (off j) l -> ord (off i) (off j') l.
  Proof.
    intros l i i' j j' H A B C D. eapply ord_wide; [exact D|now apply off_suf|]. apply off_suf; [|auto]. exact (suf_trans _ _ _ B (suf_trans _ _ _ A H)).
  Qed.

  Definition all_lex (f : nat) : Prop :=
    (forall i, suf i line -> 4 * length i + 2 < f -> good true expr_lx i (p_expr k line f i)) /\
    (forall i0 i bs, suf i0 line -> suf i i0 -> 4 * length i + 1 < f -> ord (off i0) (off i) (flat_map block_words bs) ->
       match p_pipes k line f i bs with
       | POk j bs' => suf j i /\ ord (off i0) (off j) (flat_map block_words bs')
       | PFuel => False
       | _ => True
       end) /\
    (forall i, suf i line -> 4 * length i < f -> good true block_lx i (p_block k line f i)) /\
    (forall i0 i ts, suf i0 line -> suf i i0 -> 4 * length i + 3 < f -> ord (off i0) (off i) (flat_map term_words ts) ->
       match p_terms k line f i ts with
       | POk j ts' => suf j i /\ ord (off i0) (off j) (flat_map term_words ts')
       | PFuel => False
       | _ => True
       end) /\
    (forall i, suf i line -> 4 * length i + 2 < f -> good true term_lx i (p_term k line f i)) /\
    (forall i, suf i line -> 4 * length i + 1 < f -> good true arg_lx i (p_arg k line f i)).

  Lemma flat_snoc : forall A B (f : A -> list B) l x, flat_map f (l ++ [x]) = flat_map f l ++ f x.
  Proof. intros. rewrite flat_map_app. cbn. now rewrite app_nil_r. Qed.

  Lemma parse_lex : forall f, all_lex f.
  Proof.
    induction f as [|f (IHe & IHp & IHb & IHts & IHt & IHa)]; [repeat split; intros; lia|].
    assert (WB : forall i, suf i line -> 4 * length i < f -> good true block_lx i (ws (p_block k line f) i)).
    { intros i H L. apply (ws_good' line); auto; [|intros ? ? ? ? ?; apply lx_wide]. intros i' S. apply IHb; [exact (suf_trans _ _ _ S H)|]. apply suf_len in S. lia. }
    split; [|split; [|split; [|split; [|split]]]].
    - (* expr *)
      intros i H L. rewrite p_expr_S. cbv zeta. assert (G := WB i H ltac:(lia)). destruct (ws (p_block k line f) i) as [j b| | |]; cbn [pbind]; try (cbn in *; tauto).
      destruct G as (S & Lj & B). assert (Hj : suf j line) by exact (suf_trans _ _ _ S H).
      assert (B1 : ord (off i) (off j) (flat_map block_words [b])) by (cbn [flat_map]; rewrite app_nil_r; exact B).
      assert (G := IHp i j [b] H S ltac:(lia) B1). destruct (p_pipes k line f j [b]) as [j1 bs| | |]; cbn [pbind]; try (cbn; tauto).
      destruct G as (S1 & B2). assert (Hj1 : suf j1 line) by exact (suf_trans _ _ _ S1 Hj).
      assert (FIN : forall j' bs' t, suf j' j1 -> ord (off i) (off j') (flat_map block_words bs') -> good true expr_lx i (POk j' (Expr t bs' None))).
      { intros j' bs' t S' B'. cbn. split; [exact (suf_trans _ _ _ S' (suf_trans _ _ _ S1 S))|]. split; [apply suf_len in S', S1; cbn in Lj; lia|].
        split; [|reflexivity]. cbn [expr_words ty_words]. now rewrite app_nil_r. }
      assert (G := WB j1 Hj1). destruct (ws (p_block k line f) j1) as [j2 b2| | |].
      + destruct G as (S2 & L2 & B3); [apply suf_len in S1; cbn in Lj; lia|]. apply FIN; auto. rewrite flat_snoc. eapply ord_app; eauto.
      + apply FIN; auto. apply suf_refl.
      + apply FIN; auto. apply suf_refl.
      + destruct G. apply suf_len in S1. cbn in Lj. lia.
    - (* pipes *)
      intros i0 i bs H0 S L B. rewrite p_pipes_S. cbv zeta. destruct (starts 124 i) eqn:E; [|split; [apply suf_refl|auto]].
      destruct i as [|c i]; [discriminate|]. cbn [tl]. assert (Hi : suf (c :: i) line) by exact (suf_trans _ _ _ S H0).
      assert (H1 : suf i line) by exact (suf_trans _ _ _ (suf_cons c i) Hi). cbn in L.
      assert (G := WB i H1 ltac:(lia)). destruct (ws (p_block k line f) i) as [j b| | |]; cbn [pbind]; try (cbn in *; tauto).
      destruct G as (S1 & L1 & B1). cbn in L1.
      assert (Sj : suf j (c :: i)) by exact (suf_trans _ _ _ S1 (suf_cons c i)).
      assert (Bn : ord (off i0) (off j) (flat_map block_words (bs ++ [b]))).
      { rewrite flat_snoc. eapply ord_app; [exact B|]. eapply ord_wide; [exact B1|now apply off_cons|apply le_n]. }
      assert (G := IHp i0 j (bs ++ [b]) H0 (suf_trans _ _ _ Sj S) ltac:(lia) Bn).
      destruct (p_pipes k line f j (bs ++ [b])) as [j2 bs2| | |]; auto.
      destruct G as (S2 & B2). split; [exact (suf_trans _ _ _ S2 Sj)|auto].
    - (* block *)
      intros i H L. rewrite p_block_S. cbv zeta. assert (G := opt_ty_lex i H). destruct (opt_ty k line i) as [i1 ity| | |]; cbn [pbind]; try (cbn in *; tauto).
      destruct G as (S1 & _ & T1). assert (H1 : suf i1 line) by exact (suf_trans _ _ _ S1 H).
      assert (Ss := suf_skip i1). assert (Hs : suf (skip i1) line) by exact (suf_trans _ _ _ Ss H1).
      assert (G := op_lex (skip i1) Hs). destruct (op k line (skip i1)) as [i2 o| | |]; cbn [pbind]; try (cbn in *; tauto).
      destruct G as (S2 & L2 & O). assert (H2 : suf i2 line) by exact (suf_trans _ _ _ S2 Hs).
      assert (G := opt_ty_lex i2 H2). destruct (opt_ty k line i2) as [i3 oty| | |]; cbn [pbind]; try (cbn in *; tauto).
      destruct G as (S3 & _ & T3). assert (H3 : suf i3 line) by exact (suf_trans _ _ _ S3 H2).
      assert (Len : length i3 < length i) by (apply suf_len in S1, Ss, S3; cbn in L2; lia).
      assert (T0 : ord (off i3) (off i3) (flat_map term_words [])) by (constructor; apply le_n).
      assert (G := IHts i3 i3 [] H3 (suf_refl _) ltac:(lia) T0).
      destruct (p_terms k line f i3 []) as [i4 ts| | |]; cbn [pbind]; try (cbn in *; tauto). destruct G as (S4 & T4). cbn.
      split; [exact (suf_trans _ _ _ S4 (suf_trans _ _ _ S3 (suf_trans _ _ _ S2 (suf_trans _ _ _ Ss S1))))|]. split; [apply suf_len in S4; lia|].
      unfold block_lx. cbn [block_words]. eapply ord_app; [exact T1|]. eapply ord_app; [eapply ord_wide; [exact O|now apply off_suf|apply le_n]|].
      eapply ord_app; [exact T3|exact T4].
    - (* terms *)
      intros i0 i ts H0 S L B. rewrite p_terms_S. cbv zeta. assert (Hi : suf i line) by exact (suf_trans _ _ _ S H0).
      assert (G : good true term_lx i (ws (p_term k line f) i)).
      { apply (ws_good' line); auto; [|intros ? ? ? ? ?; apply lx_wide]. intros i' S'. apply IHt; [exact (suf_trans _ _ _ S' Hi)|]. apply suf_len in S'. lia. }
      destruct (ws (p_term k line f) i) as [j t| | |]; try (cbn in *; tauto); [|split; [apply suf_refl|auto]].
      destruct G as (S1 & L1 & T). destruct (Nat.eqb_spec (length j) (length i)); [exact I|]. cbn in L1.
      assert (Tn : ord (off i0) (off j) (flat_map term_words (ts ++ [t]))) by (rewrite flat_snoc; eapply ord_app; eauto).
      assert (G := IHts i0 j (ts ++ [t]) H0 (suf_trans _ _ _ S1 S) ltac:(lia) Tn).
      destruct (p_terms k line f j (ts ++ [t])) as [j2 ts2| | |]; auto.
      destruct G as (S2 & T2). split; [exact (suf_trans _ _ _ S2 S1)|auto].
    - (* term *)
      intros i H L. rewrite p_term_S. cbv zeta. destruct (strip (lit "--") i).
      + eapply good_bind; [now apply flag_lex|]. intros j t S Lj C. cbn in *. split; [auto|]. split; [auto|]. exact C.
      + assert (G := IHa i H ltac:(lia)). destruct (p_arg k line f i) as [j a| | |]; cbn [pbind]; try (cbn in *; tauto).
        destruct G as (S & Lj & A). assert (G := infix_lex (length j) i j a H S (le_n _) A).
        destruct (infix k line (length j) j a) as [j2 a2| | |]; cbn; auto. destruct G as (S2 & A2).
        split; [exact (suf_trans _ _ _ S2 S)|]. split; [apply suf_len in S2; cbn in Lj; lia|]. exact A2.
    - (* arg *)
      intros i H L. rewrite p_arg_S. cbv zeta. destruct (starts 123 i) eqn:E.
      + destruct i as [|c i]; [discriminate|]. cbn in E. apply N.eqb_eq in E. subst c. destruct (empty_braces _); [exact I|].
        cbn [pchar]. rewrite N.eqb_refl. cbn [pbind]. assert (H1 : suf i line) by exact (suf_trans _ _ _ (suf_cons _ _) H). cbn [length] in L.
        assert (Sk := suf_skip i). assert (Hk : suf (skip i) line) by exact (suf_trans _ _ _ Sk H1).
        assert (G := IHe (skip i) Hk). unfold ws at 1. destruct (p_expr k line f (skip i)) as [j e| | |]; try (cbn; tauto);
          [|cbn; apply G; apply suf_len in Sk; lia]. cbn [pbind].
        destruct G as (S1 & L1 & (X1 & X2)); [apply suf_len in Sk; lia|].
        assert (Sj := suf_skip j). assert (G := pchar_good 125 (skip j)). destruct (pchar 125 (skip j)) as [j2 u| | |]; cbn [pbind cut]; try (cbn in *; tauto).
        destruct G as (S2 & L2 & E2). cbv beta in E2. cbn in L2.
        assert (Hj : suf j line) by exact (suf_trans _ _ _ S1 Hk). assert (Hsj : suf (skip j) line) by exact (suf_trans _ _ _ Sj Hj).
        assert (Hj2 : suf j2 line) by exact (suf_trans _ _ _ S2 Hsj).
        assert (G := opt_ty_lex j2 Hj2). destruct (opt_ty k line j2) as [j3 out| | |]; cbn [pbind]; try (cbn in *; tauto).
        destruct G as (S3 & _ & T3).
        assert (Sji : suf j (123%N :: i)) by exact (suf_trans _ _ _ S1 (suf_trans _ _ _ Sk (suf_cons _ _))).
        assert (Sj2j : suf j2 j) by exact (suf_trans _ _ _ S2 Sj).
        cbn [good]. split; [exact (suf_trans _ _ _ S3 (suf_trans _ _ _ Sj2j Sji))|]. split; [apply suf_len in S3, Sj, S1, Sk; cbn; lia|].
        unfold arg_lx. cbn [arg_words expr_words]. destruct e as [et bs eo]. cbn [ex_blocks ex_out] in *. subst eo.
        cbn [expr_words ty_words] in X1. rewrite app_nil_r in X1. eapply ord_app; [|exact T3].
        eapply ord_wide; [exact X1| |]; apply off_suf; auto. exact (suf_trans _ _ _ Sk (suf_cons _ _)).
      + destruct (starts 58 i); [exact I|]. destruct (breakon_s k i); [exact I|]. destruct (starts 36 i) eqn:E36.
        { destruct i as [|c i]; [discriminate|]. cbn in E36. apply N.eqb_eq in E36. subst c. unfold var. cbn [pchar]. rewrite N.eqb_refl. cbn [pbind].
          assert (H1 : suf i line) by exact (suf_trans _ _ _ (suf_cons _ _) H). assert (G := op_ident_good k line i H1).
          destruct (op_ident k line i) as [j t| | |]; cbn [pbind]; try (cbn in *; tauto). destruct G as (S & Lj & C). cbn in Lj |- *.
          split; [exact (suf_trans _ _ _ S (suf_cons _ _))|]. split; [lia|]. destruct S as (p & ->).
          destruct (stands_at NVar (36%N :: p ++ j) (lit "$") p [] j t) as [X _]; auto; [now split|intros _ ->; cbn in Lj; lia|]. eapply ord_one; exact X. }
        destruct (starts 35 i) eqn:E35.
        { destruct i as [|c i]; [discriminate|]. cbn in E35. apply N.eqb_eq in E35. subst c. cbn [tl].
          assert (H1 : suf i line) by exact (suf_trans _ _ _ (suf_cons _ _) H). assert (G := good_cut _ _ _ _ _ (op_ident_good k line i H1)).
          destruct (cut (op_ident k line i)) as [j c| | |]; cbn [pbind]; try (cbn in *; tauto). destruct G as (S & Lj & C).
          destruct (byte_len (tg_str c)) as [|[|n]]; try exact I. destruct (tg_str c) as [|ch r]; [exact I|]. cbn.
          assert (Sj : suf j (35%N :: i)) by exact (suf_trans _ _ _ S (suf_cons _ _)). cbn in Lj.
          split; [exact Sj|]. split; [lia|].
          assert (Z := off_app line [35%N] i H). cbn in Z. rewrite (covers_s _ _ _ _ C).
          replace (N.of_nat (off i) - 1)%N with (N.of_nat (off (35%N :: i))) by lia.
          apply (bare NPound (35%N :: i) j); auto; [cbn; lia| |now split]. eapply set_start_covers; exact C. }
        assert (G : good true (fun i j nt => ord (off i) (off j) [(NNum, snd nt)]) i (num k line i)).
        { unfold num. eapply good_bind; [apply token_good|]. intros j t S Lj Et. cbv beta in Et. destruct (number k t); cbn; [|auto].
          split; [auto|]. split; [auto|]. apply bare; auto; [|now split]. now apply create_covers. }
        assert (NEXT : good true arg_lx i (if known_op k line i then
              let* (j, b) := ws (p_block k line f) i in POk j (AExpr (Expr (set_end line (create_tag line i i) (N.of_nat (off j))) [b] None))
            else let* (j, t) := ident k line i in POk j (AIdent t))).
        { destruct (known_op k line i).
          - assert (Gb := WB i H ltac:(lia)). destruct (ws (p_block k line f) i) as [j b| | |]; cbn [pbind]; try (cbn in *; tauto).
            destruct Gb as (S & Lj & B). cbn in Lj |- *. split; [auto|]. split; [auto|]. unfold arg_lx. cbn [arg_words expr_words flat_map ty_words].
            rewrite !app_nil_r. exact B.
          - eapply good_bind; [now apply ident_named|]. intros j t S Lj C. cbn in *. split; [auto|]. split; [auto|]. now apply named_lex. }
        destruct (num k line i) as [j nt| | |]; auto.
  Qed.

  Lemma expr_p_lex : forall i, suf i line -> good true expr_lx i (expr_p k line i).
  Proof. intros i H. apply (parse_lex (enough i)); [auto|]. unfold enough. lia. Qed.
End S.

Lemma expression_words : forall k line r e, expression k line = POk r e -> in_order line 0 (byte_len line) (expr_words e).
Proof.
  intros k line r e H. unfold expression, no_trailing in H. assert (G := expr_p_lex k line line (suf_refl _)).
  destruct (expr_p k line line) as [j x| | |]; cbn in *; try discriminate. destruct (blank k j); [|discriminate]. injection H as <- <-.
  destruct G as (_ & _ & X & _). eapply ord_wide; [exact X|lia|apply off_max].
Qed.

(** ** Definitions *)
Definition param_words (p : aparam) : list leaf := (NParameter, fst p) :: ty_words (snd p).
Lemma def_param_lex : forall k line i, suf i line -> good true (fun i j p => in_order line (offset line i) (offset line j) (param_words p)) i (def_param k line i).
Proof.
  intros k line i H. unfold def_param. assert (G := op_ident_good k line i H). destruct (op_ident k line i) as [j n| | |]; cbn [pbind]; try exact I; [|exact G].
  destruct G as (S & L & C). cbn in L. assert (Hj : suf j line) by exact (suf_trans _ _ _ S H).
  assert (O : in_order line (offset line i) (offset line j) [(NParameter, n)]) by (apply (bare line NParameter i j); auto; now split).
  destruct (starts 58 j); [|cbn; auto]. assert (S1 := suf_tl j).
  assert (Hj1 : suf (tl j) line) by exact (suf_trans _ _ _ S1 Hj).
  assert (G := op_ident_good k line (tl j) Hj1). destruct (op_ident k line (tl j)) as [j2 t| | |]; cbn in *; auto. destruct G as (S2 & L2 & C2).
  split; [exact (suf_trans _ _ _ S2 (suf_trans _ _ _ S1 S))|]. split; [apply suf_len in S1; lia|].
  unfold param_words. cbn [fst snd ty_words]. change [(NParameter, n); (NType, t)] with ([(NParameter, n)] ++ [(NType, t)]).
  eapply ord_app; [exact O|]. eapply ord_wide; [apply (bare line NType (tl j) j2); auto; now split|now apply off_suf|apply le_n].
Qed.
Lemma many_params_lex : forall k line f i0 i ps, suf i0 line -> suf i i0 -> length i < f ->
  in_order line (offset line i0) (offset line i) (flat_map param_words ps) ->
  match many_params k line f i ps with
  | POk j ps' => suf j i /\ in_order line (offset line i0) (offset line j) (flat_map param_words ps')
  | _ => True
  end.
Proof.
  intros k line. induction f as [|f IH]; intros i0 i ps H0 S L O; [lia|]. cbn [many_params]. assert (H : suf i line) by exact (suf_trans _ _ _ S H0).
  assert (G : good true (fun i j p => in_order line (offset line i) (offset line j) (param_words p)) i (ws (def_param k line) i)).
  { apply (ws_good' line); auto; [|intros ? ? ? ? ?; apply lx_wide]. intros i' S'. apply def_param_lex. exact (suf_trans _ _ _ S' H). }
  destruct (ws (def_param k line) i) as [j p| | |]; cbn in G; auto.
  - destruct G as (S1 & Lj & Op). destruct (Nat.eqb_spec (length j) (length i)); [exact I|].
    assert (On : in_order line (offset line i0) (offset line j) (flat_map param_words (ps ++ [p]))) by (rewrite flat_snoc; eapply ord_app; eauto).
    assert (X := IH i0 j (ps ++ [p]) H0 (suf_trans _ _ _ S1 S) ltac:(lia) On). destruct (many_params k line f j (ps ++ [p])); auto.
    destruct X as (S2 & X). split; [exact (suf_trans _ _ _ S2 S1)|exact X].
  - split; [apply suf_refl|exact O].
Qed.

Lemma sep_list_len : forall k line f i ts, exists more, snd (sep_list k line f i ts) = ts ++ more /\ (more = [] -> fst (sep_list k line f i ts) = i).
Proof.
  intros k line. induction f as [|f IH]; intros i ts; cbn [sep_list]; [exists []; cbn; now rewrite app_nil_r|].
  destruct (let* (i0, _) := ptag (lit "/") i in tmp_op k line i0) as [j t| | |]; try (exists []; cbn; now rewrite app_nil_r).
  destruct (IH j (ts ++ [t])) as (more & E & F). exists (t :: more). rewrite E, <- app_assoc. split; [reflexivity|discriminate].
Qed.
Lemma sep_one : forall k line f i t j t', sep_list k line f i [t] = (j, [t']) -> j = i /\ t' = t.
Proof.
  intros k line f i t j t' H. destruct (sep_list_len k line f i [t]) as (more & E & F). rewrite H in *. cbn in *. injection E as -> E. symmetry in E. subst more.
  split; [now apply F|reflexivity].
Qed.

(** The name starts a byte or more after the [def]. *)
Lemma def_op_lex : forall k line i nm, def_op k line line = POk i nm ->
  suf i line /\ in_order line 0 (offset line i) [(NCommand, def_word line nm); (NCommand, nm)].
Proof.
  intros k line i nm H. unfold def_op, ws in H. set (i0 := skip line) in *. assert (S0 : suf i0 line) by apply suf_skip.
  assert (G := ptag_good (lit "def ") i0 ltac:(discriminate)). destruct (ptag (lit "def ") i0) as [j u| | |]; cbn [pbind] in H; try discriminate.
  destruct G as (S1 & L1 & E1 & E2). assert (Hj : suf j line) by exact (suf_trans _ _ _ S1 S0).
  destruct (op k line j) as [j2 o| | |] eqn:Eo; cbn [pbind] in H; try discriminate.
  destruct o as [t|cs n r].
  2:{ exfalso. (* two or more parts: no name *)
      unfold op in Eo. destruct (spec_op j) as [? ?| | |]; try discriminate.
      all: destruct (path k line j) as [j' p| | |]; cbn [pbind] in Eo; try discriminate;
           injection Eo as _ Eo; destruct (fst p) as [|t0 [|t1 ts]]; try discriminate; injection Eo as <- <- <-; cbn in H; discriminate. }
  cbn [is_op] in H. injection H as <- <-.
  (* the op starts at [j], or a byte after it *)
  assert (P : exists m j1, (m = [] \/ m = lit "/") /\ j = m ++ j1 /\ suf j2 j1 /\ length j2 < length j1 /\ covers line j1 j2 t).
  { assert (PC : (let* (i, p) := path k line j in POk i (match fst p with [t] => OpSingle t | cs => OpPath cs 0 (snd p) end)) = POk j2 (OpSingle t) ->
       exists m j1, (m = [] \/ m = lit "/") /\ j = m ++ j1 /\ suf j2 j1 /\ length j2 < length j1 /\ covers line j1 j2 t).
    { clear Eo. unfold path. destruct (strip (lit "/") j) as [j1|] eqn:Es; [apply strip_app in Es|].
      + intros Eo. assert (H1 : suf j1 line) by (eapply suf_trans; [|exact Hj]; now exists (lit "/")).
        exists (lit "/"), j1. split; [now right|]. split; [exact Es|].
        assert (Gt := tmp_op_good k line j1 H1). destruct (tmp_op k line j1) as [j3 t3| | |]; cbn [pbind] in Eo; try discriminate. destruct Gt as (A1 & A2 & A3).
        assert (One : sep_list k line (length j3) j3 [t3] = (j2, [t])).
        { destruct (sep_list k line (length j3) j3 [t3]) as [jx cs]. destruct (starts 47 jx); [discriminate|]. cbn in Eo. injection Eo as <- Eo.
          destruct cs as [|c [|c' cs]]; try discriminate. now injection Eo as ->. }
        assert (T := sep_one k line (length j3) j3 t3 j2 t One). destruct T as [-> ->]. cbn in A2. auto.
      + intros Eo. exists [], j. split; [now left|]. split; [reflexivity|].
        assert (Gt := tmp_op_good k line j Hj). destruct (tmp_op k line j) as [j3 t3| | |]; cbn [pbind] in Eo; try discriminate. destruct Gt as (A1 & A2 & A3).
        assert (One : sep_list k line (length j3) j3 [t3] = (j2, [t])).
        { destruct (sep_list k line (length j3) j3 [t3]) as [jx cs]. destruct (starts 47 jx); [discriminate|]. cbn in Eo. injection Eo as <- Eo.
          destruct cs as [|c [|c' cs]]; try discriminate. now injection Eo as ->. }
        assert (T := sep_one k line (length j3) j3 t3 j2 t One). destruct T as [-> ->]. cbn in A2. auto. }
    unfold op in Eo. assert (Gs := spec_op_good j). destruct (spec_op j) as [js ts| | |]; try (exact (PC Eo)).
    injection Eo as <- <-. destruct Gs as (Sx & Lx & Ex). exists [], j. cbn in Lx. repeat split; auto. now apply create_covers. }
  destruct P as (m & j1 & Hm & -> & S2 & L2 & C). assert (H1 : suf j1 line) by (eapply suf_trans; [|exact Hj]; now exists m).
  assert (S3 := suf_skip j2). assert (H2 : suf j2 line) by exact (suf_trans _ _ _ S2 H1). split; [exact (suf_trans _ _ _ S3 H2)|].
  change [(NCommand, def_word line t); (NCommand, t)] with ([(NCommand, def_word line t)] ++ [(NCommand, t)]).
  eapply (ord_app _ _ (offset line j1)).
  - destruct S0 as (sp & Esp). subst i0. set (i0 := skip line) in *.
    assert (X : exists w c, line = w ++ [c] ++ j1 /\ w <> [] /\ len_utf8 c = 1).
    { destruct Hm as [-> | ->].
      - exists (sp ++ lit "def"), 32%N. repeat split; [rewrite Esp at 1; rewrite E2; cbn; now rewrite <- app_assoc|]. destruct sp; discriminate.
      - exists (sp ++ lit "def "), 47%N. repeat split; [rewrite Esp at 1; rewrite E2; cbn; now rewrite <- app_assoc|]. destruct sp; discriminate. }
    destruct X as (w & c & El & Nw & Lc).
    assert (O1 : offset line j1 = byte_len w + 1).
    { rewrite (off_at line (w ++ [c]) j1); [|now rewrite <- app_assoc]. rewrite byte_len_app. cbn. now rewrite Lc, Nat.add_0_r. }
    assert (Ew : def_word line t = mk line (offset line (w ++ [c] ++ j1)) (offset line ([c] ++ j1))).
    { unfold def_word. rewrite (covers_s _ _ _ _ C), Nat2N.id, O1. replace (byte_len w + 1 - 1) with (byte_len w) by lia.
      rewrite (off_at line w ([c] ++ j1) El). rewrite (off_at line [] (w ++ [c] ++ j1) El). reflexivity. }
    destruct (stands_at line NCommand (w ++ [c] ++ j1) [] w [] ([c] ++ j1) (def_word line t)) as [X _]; auto.
    + rewrite <- El. apply suf_refl.
    + now split.
    + eapply ord_wide; [eapply ord_one; exact X|lia|]. apply off_suf; [|now exists [c]]. rewrite El. now exists w.
  - eapply ord_wide; [apply (bare line NCommand j1 j2); auto; now split|apply le_n|]. apply off_suf; auto.
Qed.

Lemma definition_words : forall k line r d, definition_impl k line = POk r d -> in_order line 0 (byte_len line) (def_words line d).
Proof.
  intros k line r d H. unfold definition_impl, def_impl in H.
  destruct (def_op k line line) as [i1 nm| | |] eqn:E1; cbn [pbind] in H; try discriminate. destruct (def_op_lex _ _ _ _ E1) as [H1 O1].
  unfold ws at 1 in H. set (i1' := skip i1) in *. assert (S1 : suf i1' i1) by apply suf_skip.
  assert (H1' : suf i1' line) by exact (suf_trans _ _ _ S1 H1).
  assert (G := op_ident_good k line i1' H1').
  destruct (let* (j, t) := popt i1' (op_ident k line i1') in POk (skip j) t) as [i2 ity| | |] eqn:E2; cbn [pbind] in H; try discriminate.
  assert (X : suf i2 i1' /\ in_order line (offset line i1') (offset line i2) (ty_words ity)).
  { destruct (op_ident k line i1') as [j t| | |]; cbn in E2; try discriminate; injection E2 as <- <-.
    - destruct G as (Sx & Lx & Cx). assert (Sk := suf_skip j). split; [exact (suf_trans _ _ _ Sk Sx)|]. cbn [ty_words].
      eapply ord_wide; [apply (bare line NType i1' j); auto; now split|apply le_n|]. apply off_suf; auto. exact (suf_trans _ _ _ Sx H1').
    - split; [apply suf_skip|]. constructor. apply off_suf; auto. apply suf_skip. }
  destruct X as [S2 O2]. assert (H2 : suf i2 line) by exact (suf_trans _ _ _ S2 H1').
  destruct (def_params k line i2) as [i3 ps| | |] eqn:E3; cbn [pbind] in H; try discriminate.
  assert (X : suf i3 i2 /\ in_order line (offset line i2) (offset line i3) (flat_map param_words ps)).
  { unfold def_params in E3. assert (G3 := pchar_good 40 i2). destruct (pchar 40 i2) as [j u| | |]; cbn [pbind] in E3; try discriminate. destruct G3 as (Sx & _ & _).
    assert (Hj : suf j line) by exact (suf_trans _ _ _ Sx H2).
    assert (M := many_params_lex k line (S (length j)) j j [] Hj (suf_refl _) ltac:(lia) ltac:(constructor; apply le_n)).
    destruct (many_params k line (S (length j)) j []) as [j2 ps2| | |]; cbn [pbind] in E3; try discriminate. destruct M as [M1 M2].
    assert (G4 := pchar_good 41 j2). destruct (pchar 41 j2) as [j3 u3| | |]; cbn [pbind] in E3; try discriminate. destruct G4 as (Sy & _ & _).
    destruct (repeats [] ps2); [discriminate|]. injection E3 as <- <-. split; [exact (suf_trans _ _ _ Sy (suf_trans _ _ _ M1 Sx))|].
    eapply ord_wide; [exact M2|now apply off_suf|]. apply off_suf; auto. exact (suf_trans _ _ _ M1 Hj). }
  destruct X as [S3 O3]. assert (H3 : suf i3 line) by exact (suf_trans _ _ _ S3 H2).
  unfold no_trailing, ws in H. assert (Ss := suf_skip i3). assert (Hs : suf (skip i3) line) by exact (suf_trans _ _ _ Ss H3).
  assert (G4 := pchar_good 123 (skip i3)). destruct (pchar 123 (skip i3)) as [j u| | |]; cbn [pbind] in H; try discriminate. destruct G4 as (S4 & _ & _).
  assert (Hj : suf j line) by exact (suf_trans _ _ _ S4 Hs). assert (Sk := suf_skip j). assert (Hk : suf (skip j) line) by exact (suf_trans _ _ _ Sk Hj).
  assert (G5 := expr_p_lex k line (skip j) Hk). destruct (expr_p k line (skip j)) as [j5 e| | |]; cbn [pbind] in H; try discriminate.
  destruct G5 as (S5 & _ & (O5 & _)).
  destruct (pchar 125 (skip j5)) as [j6 u6| | |]; cbn [pbind] in H; try discriminate. destruct (blank k (skip j6)); [|discriminate]. cbn [pbind] in H. injection H as <- <-.
  unfold def_words. eapply ord_app; [exact O1|]. eapply ord_app; [eapply ord_wide; [exact O2|now apply off_suf|apply le_n]|].
  eapply ord_app; [exact O3|]. eapply ord_wide; [exact O5| |apply off_max].
  apply off_suf; auto. exact (suf_trans _ _ _ Sk (suf_trans _ _ _ S4 Ss)).
Qed.
