(** Only what is written as a definition of a type is read as one. *)
From Coq Require Import String List ZArith NArith Bool Arith Lia.
From Verif Require Import Model.Base Model.Utf Model.Value Model.Ast Model.Parse Model.Registry Model.ParseTy Spec.ParseSpec Spec.ParseTySpec.
From Verif Require Import Proofs.ParseSpanProofs Proofs.ParseWriteProofs Proofs.ParseMainProofs Proofs.ParseTyProofs.
Import ListNotations.

Lemma bind_ok : forall A B (r : pres A) (f : str -> A -> pres B) j b, pbind r f = POk j b -> exists i a, r = POk i a /\ f i a = POk j b.
Proof. intros A B [i a| | |] f j b H; try discriminate. eauto. Qed.
Lemma cut_ok : forall A (r : pres A) j a, cut r = POk j a -> r = POk j a.
Proof. intros A [i a| | |] j b H; try discriminate. exact H. Qed.
Lemma skip_split : forall i, exists w, spaces w /\ i = w ++ skip i.
Proof.
  induction i as [|c i (w & S & E)]; [exists []; split; [intros c []|reflexivity]|]. cbn [skip]. destruct (ms c) eqn:M; [|exists []; split; [intros x []|reflexivity]].
  exists (c :: w). split; [|cbn; now rewrite <- E]. intros x [<-|I]; [|now apply S]. unfold ms in M. rewrite !orb_true_iff, !N.eqb_eq in M. cbn. intuition.
Qed.
Lemma ws_ok : forall A (p : str -> pres A) i j a, ws p i = POk j a -> exists w j0 w', spaces w /\ i = w ++ skip i /\ p (skip i) = POk j0 a /\ spaces w' /\ j0 = w' ++ j /\ j = skip j0.
Proof.
  intros A p i j a H. unfold ws in H. apply bind_ok in H. destruct H as (j0 & b & E & H). injection H as <- <-. destruct (skip_split i) as (w & W & Ew). destruct (skip_split j0) as (w' & W' & Ew').
  exists w, j0, w'. auto 10.
Qed.
Lemma pchar_ok : forall c i j u, pchar c i = POk j u -> i = c :: j.
Proof. intros c i j u H. pose proof (pchar_good c i) as G. rewrite H in G. apply G. Qed.
Lemma ptag_ok : forall p i j t, p <> [] -> ptag p i = POk j t -> i = p ++ j.
Proof. intros p i j t N H. pose proof (ptag_good p i N) as G. rewrite H in G. apply G. Qed.
Lemma spaces_app : forall a b, spaces a -> spaces b -> spaces (a ++ b).
Proof. intros a b A B c I. apply in_app_or in I. destruct I; auto. Qed.
Lemma spaces_nil : spaces [].
Proof. intros c []. Qed.

(** ** Many *)
Lemma list_trail : forall A (W sep : A -> str -> Prop) l s w, w_list W sep l s -> l <> [] -> spaces w -> w_list W sep l (s ++ w).
Proof.
  intros A W sep l s w H. induction H as [|a x s y Sx Ws Sy|a l x s y s' Sx Ws Sy Hl IH NE]; intros N Sw; [congruence| |].
  - rewrite <- !app_assoc. constructor; auto. now apply spaces_app.
  - rewrite <- !app_assoc. apply w_list_more; auto.
Qed.
Section Many.
  Variables (A : Type) (line : str) (p : str -> pres A) (W sep : A -> str -> Prop).
  Hypothesis sound : forall i j a, suf i line -> p i = POk j a -> exists s w, W a s /\ spaces w /\ i = s ++ w ++ j.
  Hypothesis next : forall i j j' a b, suf i line -> p i = POk j a -> p j = POk j' b -> sep a [].
  Hypothesis wide : forall a w, w <> [] -> spaces w -> sep a w.

  Lemma step_sound : forall i j a, suf i line -> ws p i = POk j a -> exists w s w', spaces w /\ W a s /\ spaces w' /\ i = w ++ s ++ w' ++ j /\ suf j line /\
    (forall j' b, ws p j = POk j' b -> sep a w').
  Proof.
    intros i j a S H. destruct (ws_ok _ _ _ _ _ H) as (w & j0 & w' & Sw & Ei & Ep & Sw' & Ej & Es).
    destruct (sound _ _ _ (suf_trans _ _ _ (suf_skip i) S) Ep) as (s & w0 & Ws & Sw0 & E). exists w, s, (w0 ++ w'). split; [auto|]. split; [auto|]. split; [now apply spaces_app|].
    assert (Q : i = w ++ s ++ (w0 ++ w') ++ j) by (rewrite <- app_assoc, <- Ej, <- E; exact Ei). split; [exact Q|].
    split; [refine (suf_trans _ _ _ _ S); exists (w ++ s ++ w0 ++ w'); rewrite Q; now rewrite <- !app_assoc|].
    intros j' b N. destruct (w0 ++ w') as [|c r] eqn:EW; [|apply wide; [discriminate|rewrite <- EW; now apply spaces_app]].
    apply app_eq_nil in EW. destruct EW as (-> & ->). cbn in Ej. subst j0.
    destruct (ws_ok _ _ _ _ _ N) as (_ & j1 & _ & _ & _ & Ep' & _). assert (Z : skip j = j) by (symmetry; exact Es). rewrite Z in Ep'.
    exact (next _ _ _ _ _ (suf_trans _ _ _ (suf_skip i) S) Ep Ep').
  Qed.
  Lemma many_sound : forall f i acc j l, suf i line -> many_ws p f i acc = POk j l ->
    exists l', l = acc ++ l' /\ ((l' = [] /\ j = i) \/ (l' <> [] /\ exists s, w_list W sep l' s /\ i = s ++ j /\ exists j' b, ws p i = POk j' b)).
  Proof.
    induction f as [|f IH]; intros i acc j l S H; [discriminate|]. cbn [many_ws] in H. destruct (ws p i) as [i1 a| | |] eqn:E; try discriminate.
    - destruct (Nat.eqb _ _); [discriminate|]. destruct (step_sound _ _ _ S E) as (w & s & w' & Sw & Ws & Sw' & Ei & S1 & SEP).
      destruct (IH _ _ _ _ S1 H) as (l' & -> & C). exists (a :: l'). split; [now rewrite <- app_assoc|]. right. split; [discriminate|].
      destruct C as [(-> & ->)|(NE & s' & Wl & Ej & j' & b & N)].
      + exists (w ++ s ++ w'). split; [now constructor|]. split; [rewrite Ei; now rewrite <- !app_assoc|eauto].
      + exists (w ++ s ++ w' ++ s'). split; [apply w_list_more; auto; eapply SEP; exact N|]. split; [rewrite Ei, Ej; now rewrite <- !app_assoc|eauto].
    - injection H as <- <-. exists []. split; [now rewrite app_nil_r|]. now left.
  Qed.
  Lemma many0_sound : forall i j l, suf i line -> many0_ws p i = POk j l -> exists s, w_list W sep l s /\ i = s ++ j.
  Proof.
    intros i j l S H. destruct (many_sound _ _ _ _ _ S H) as (l' & -> & [(-> & ->)|(_ & s & Wl & E & _)]); [exists []; split; [constructor|reflexivity]|exists s; auto].
  Qed.
  Lemma many1_sound : forall i j l, suf i line -> many1_ws p i = POk j l -> l <> [] /\ exists s, w_list W sep l s /\ i = s ++ j.
  Proof.
    intros i j l S H. unfold many1_ws in H. apply bind_ok in H. destruct H as (i1 & a & E & H). destruct (step_sound _ _ _ S E) as (w & s & w' & Sw & Ws & Sw' & Ei & S1 & SEP).
    destruct (many_sound _ _ _ _ _ S1 H) as (l' & -> & C). split; [discriminate|]. cbn [app]. destruct C as [(-> & ->)|(NE & s' & Wl & Ej & j' & b & N)].
    - exists (w ++ s ++ w'). split; [now constructor|]. rewrite Ei; now rewrite <- !app_assoc.
    - exists (w ++ s ++ w' ++ s'). split; [apply w_list_more; auto; eapply SEP; exact N|]. rewrite Ei, Ej; now rewrite <- !app_assoc.
  Qed.
End Many.

Section Sound.
  Variable k : lang.
  Variable line : str.
  Hypothesis K : sane k.

  Lemma span_max : forall p i a b, span p i = (a, b) -> (forall c, In c a -> p c = true) /\ (forall c b', b = c :: b' -> p c = false).
  Proof.
    induction i as [|c i IH]; intros a b H; cbn [span] in H; [injection H as <- <-; split; [intros c []|discriminate]|].
    destruct (p c) eqn:E; [|injection H as <- <-; split; [intros x []|intros x b' X; now injection X as <- _]].
    destruct (span p i) as [a1 b1] eqn:F. injection H as <- <-. destruct (IH _ _ eq_refl) as (I1 & I2). split; [|exact I2]. intros x [<-|J]; auto.
  Qed.
  Lemma ident_sound : forall i j t, suf i line -> op_ident k line i = POk j t -> name k (tg_str t) /\ i = tg_str t ++ j /\ op_ident k line j = PErr.
  Proof.
    intros i j t S H. unfold op_ident in H. destruct i as [|c i]; [discriminate|]. destruct (alpha k c) eqn:A; [|discriminate].
    apply bind_ok in H. destruct H as (j0 & x & E & H). injection H as <- <-. unfold span1 in E. destruct (span (idchar k) (c :: i)) as [a b] eqn:F.
    destruct a as [|a0 a]; [discriminate|]. injection E as -> <-. destruct (span_max _ _ _ _ F) as (M1 & M2). apply span_app in F.
    assert (T : tg_str (create_tag line (c :: i) (a0 :: a)) = a0 :: a).
    { rewrite (create_covers line (c :: i) (a0 :: a) j0 S F). rewrite F in S |- *. apply mk_text, S. }
    rewrite T. split; [|split; [exact F|]].
    - cbn in F. injection F as <- F. split; [exists c, a; auto|]. intros y Y. specialize (M1 y Y). unfold idchar in M1. rewrite !orb_true_iff, !N.eqb_eq in M1. unfold name_char. tauto.
    - unfold op_ident. destruct j0 as [|d j0]; [reflexivity|]. destruct (alpha k d) eqn:AD; [|reflexivity]. specialize (M2 d j0 eq_refl). unfold idchar in M2.
      rewrite (sane_alpha K d AD) in M2. discriminate.
  Qed.
  Lemma field_sound : forall i j f, suf i line -> defty_field k line i = POk j f -> (exists s w, w_field k f s /\ spaces w /\ i = s ++ w ++ j) /\ (tf_params f = [] -> op_ident k line j = PErr).
  Proof.
    intros i j f S H. unfold defty_field in H. apply bind_ok in H. destruct H as (i1 & n & En & H). destruct (ident_sound _ _ _ S En) as (Nn & E1 & _).
    apply bind_ok in H. destruct H as (i2 & u & Eu & H). apply cut_ok, pchar_ok in Eu. apply bind_ok in H. destruct H as (i3 & t & Et & H). apply cut_ok in Et.
    assert (S2 : suf i2 line) by (refine (suf_trans _ _ _ _ S); exists (tg_str n ++ [58%N]); rewrite E1, Eu; now rewrite <- app_assoc).
    destruct (ident_sound _ _ _ S2 Et) as (Nt & E3 & X3). destruct (starts 60 i3) eqn:ST.
    - apply bind_ok in H. destruct H as (i4 & ps & Ep & H). injection H as <- <-. apply cut_ok in Ep. apply bind_ok in Ep. destruct Ep as (i5 & u5 & E5 & Ep). apply pchar_ok in E5.
      apply bind_ok in Ep. destruct Ep as (i6 & ps' & E6 & Ep). apply bind_ok in Ep. destruct Ep as (i7 & u7 & E7 & Ep). injection Ep as <- <-.
      assert (S5 : suf i5 line) by (refine (suf_trans _ _ _ _ S2); exists (tg_str t ++ [60%N]); rewrite E3, E5; now rewrite <- app_assoc).
      destruct (many1_sound tag line (op_ident k line) (w_tag k) (fun _ w => gap w)) with (i := i5) (j := i6) (l := ps') as (NE & s & Wl & E8); auto.
      { intros x y a Sx Ex. destruct (ident_sound _ _ _ Sx Ex) as (A1 & A2 & _). exists (tg_str a), []. split; [split; auto|]. split; [apply spaces_nil|auto]. }
      { intros x y y' a b Sx Ex Ey. destruct (ident_sound _ _ _ Sx Ex) as (_ & _ & A3). congruence. }
      { intros a w A1 A2. now split. }
      destruct (ws_ok _ _ _ _ _ E7) as (w & j0 & w' & Sw & Ei & Epc & Sw' & Ej & _). apply pchar_ok in Epc. split; [|intros Z; cbn in Z; congruence].
      exists (tg_str n ++ lit ":" ++ tg_str t ++ lit "<" ++ (s ++ w) ++ lit ">"), w'. split; [|split; [exact Sw'|]].
      + split; [exact Nn|]. split; [exact Nt|]. exists (lit "<" ++ (s ++ w) ++ lit ">"). split; [|reflexivity]. right. split; [exact NE|]. exists (s ++ w). split; [|reflexivity]. now apply list_trail.
      + rewrite E1, Eu, E3, E5, E8, Ei, Epc, Ej. now rewrite <- !app_assoc.
    - injection H as <- <-. split; [|intros _; exact X3]. exists (tg_str n ++ lit ":" ++ tg_str t ++ []), []. split; [|split; [apply spaces_nil|rewrite E1, Eu, E3; now rewrite <- !app_assoc]].
      split; [exact Nn|]. split; [exact Nt|]. exists []. split; [now left|reflexivity].
  Qed.
  Lemma fields_sound : forall i j fs, suf i line -> defty_fields k line i = POk j fs -> exists sf, w_fields k fs sf /\ i = lit "{" ++ sf ++ lit "}" ++ j.
  Proof.
    intros i j fs S H. unfold defty_fields in H. apply bind_ok in H. destruct H as (i1 & u & E1 & H). apply pchar_ok in E1. apply bind_ok in H. destruct H as (i2 & l & E2 & H).
    apply bind_ok in H. destruct H as (i3 & u3 & E3 & H). apply pchar_ok in E3. injection H as <- <-.
    assert (S1 : suf i1 line) by (refine (suf_trans _ _ _ _ S); rewrite E1; apply suf_cons).
    destruct (many0_sound tfield line (defty_field k line) (w_field k) (fun f w => spaces w /\ (tf_params f = [] -> w <> []))) with (i := i1) (j := i2) (l := l) as (s & Wl & E); auto.
    - intros x y a Sx Ex. now apply field_sound in Ex.
    - intros x y y' a b Sx Ex Ey. apply field_sound in Ex; [|exact Sx]. destruct Ex as (_ & Z). split; [apply spaces_nil|]. intros P. specialize (Z P).
      unfold defty_field in Ey. rewrite Z in Ey. discriminate.
    - exists s. split; [exact Wl|]. rewrite E1, E, E3. reflexivity.
  Qed.
  Lemma variant_sound : forall i j v, suf i line -> defty_variant k line i = POk j v -> exists w s w', spaces w /\ w_variant k v s /\ spaces w' /\ i = w ++ s ++ w' ++ j.
  Proof.
    intros i j v S H. unfold defty_variant in H. apply bind_ok in H. destruct H as (i1 & n & E1 & H). destruct (ws_ok _ _ _ _ _ E1) as (w & j0 & w' & Sw & Ei & Ep & Sw' & Ej & _).
    destruct (ident_sound _ _ _ (suf_trans _ _ _ (suf_skip i) S) Ep) as (Nn & En & _). apply bind_ok in H. destruct H as (i2 & fs & E2 & H). injection H as <- <-.
    assert (Q : i = w ++ tg_str n ++ w' ++ i1) by (rewrite <- Ej, <- En; exact Ei).
    assert (S1 : suf i1 line) by (refine (suf_trans _ _ _ _ S); exists (w ++ tg_str n ++ w'); rewrite Q; now rewrite <- !app_assoc).
    destruct (ws (defty_fields k line) i1) as [i3 l| | |] eqn:E3; cbn in E2; try discriminate; injection E2 as <- <-.
    - destruct (ws_ok _ _ _ _ _ E3) as (x & j3 & x' & Sx & Ex & Epx & Sx' & Ejx & _). destruct (fields_sound _ _ _ (suf_trans _ _ _ (suf_skip i1) S1) Epx) as (sf & Wf & Ef).
      exists w, (tg_str n ++ (w' ++ x) ++ lit "{" ++ sf ++ lit "}"), x'. split; [auto|]. split; [split; [exact Nn|]; exists (w' ++ x), sf; split; [now apply spaces_app|auto]|].
      split; [auto|]. rewrite Q at 1. rewrite Ex at 1. rewrite Ef, Ejx. now rewrite <- !app_assoc.
    - exists w, (tg_str n), w'. split; [auto|]. split; [split; [exact Nn|reflexivity]|]. auto.
  Qed.
  Lemma ws_variant_sound : forall i j v, suf i line -> ws (defty_variant k line) i = POk j v ->
    exists w s w', spaces w /\ w_variant k v s /\ spaces w' /\ i = w ++ s ++ w' ++ j /\ suf j line.
  Proof.
    intros i j v S H. destruct (ws_ok _ _ _ _ _ H) as (w & j0 & w' & Sw & Ei & Ep & Sw' & Ej & _).
    destruct (variant_sound _ _ _ (suf_trans _ _ _ (suf_skip i) S) Ep) as (x & s & x' & Sx & Wv & Sx' & E).
    assert (Q : i = (w ++ x) ++ s ++ (x' ++ w') ++ j) by (rewrite Ei at 1; rewrite E, Ej; now rewrite <- !app_assoc).
    exists (w ++ x), s, (x' ++ w'). split; [now apply spaces_app|]. split; [auto|]. split; [now apply spaces_app|]. split; [exact Q|].
    refine (suf_trans _ _ _ _ S). exists ((w ++ x) ++ s ++ x' ++ w'). rewrite Q. now rewrite <- !app_assoc.
  Qed.
  (** The variants after the first; what is left is only space. *)
  Lemma sep_sound : forall f i acc j l, suf i line -> sep_variants k line f i acc = POk j l -> skip j = [] ->
    exists l', l = acc ++ l' /\ ((l' = [] /\ spaces i) \/ (l' <> [] /\ exists w s, spaces w /\ w_variants k l' s /\ i = w ++ lit "|" ++ s)).
  Proof.
    induction f as [|f IH]; intros i acc j l S H D; [discriminate|]. cbn [sep_variants] in H.
    assert (BL : skip i = [] -> spaces i) by (intros Z; destruct (skip_split i) as (w & Sw & E); rewrite Z, app_nil_r in E; now rewrite E).
    destruct (ws (pchar 124) i) as [i1 u| | |] eqn:E1; try discriminate.
    - destruct (ws_ok _ _ _ _ _ E1) as (w & j0 & w' & Sw & Ei & Ep & Sw' & Ej & _). apply pchar_ok in Ep.
      destruct (ws (defty_variant k line) i1) as [i2 v| | |] eqn:E2; try discriminate.
      + assert (Q : i = w ++ lit "|" ++ w' ++ i1) by (rewrite Ei at 1; rewrite Ep, Ej; reflexivity).
        assert (S1 : suf i1 line) by (refine (suf_trans _ _ _ _ S); exists (w ++ lit "|" ++ w'); rewrite Q; now rewrite <- !app_assoc).
        destruct (ws_variant_sound _ _ _ S1 E2) as (x & s & x' & Sx & Wv & Sx' & Q1 & S2). destruct (IH _ _ _ _ S2 H D) as (l' & -> & C).
        exists (v :: l'). split; [now rewrite <- app_assoc|]. right. split; [discriminate|]. destruct C as [(-> & Si)|(NE & y & s' & Sy & Wl & Q2)].
        * exists w, ((w' ++ x) ++ s ++ (x' ++ i2)). split; [auto|]. split; [constructor; auto; now apply spaces_app|]. rewrite Q, Q1. now rewrite <- !app_assoc.
        * exists w, ((w' ++ x) ++ s ++ (x' ++ y) ++ lit "|" ++ s'). split; [auto|]. split; [constructor; auto; now apply spaces_app|]. rewrite Q, Q1, Q2. now rewrite <- !app_assoc.
      + injection H as <- <-. rewrite D in Ep. discriminate.
    - injection H as <- <-. exists []. split; [now rewrite app_nil_r|]. left. auto.
  Qed.
End Sound.

Theorem only_types : forall k r n b s, sane k -> definition_type k s = POk r (n, b) -> w_deftype k n b s.
Proof.
  intros k r n b s K H. unfold definition_type, def_type_inner in H. apply bind_ok in H. destruct H as (i1 & n' & E1 & H). apply bind_ok in H. destruct H as (i2 & b' & E2 & H).
  destruct (skip i2) eqn:D; [|discriminate]. injection H as <- <- <-. unfold defty_name in E1. destruct (ws_ok _ _ _ _ _ E1) as (w & j0 & w' & Sw & Ei & Ep & Sw' & Ej & _).
  apply bind_ok in Ep. destruct Ep as (i0 & u & Eu & Ep). apply ptag_ok in Eu; [|discriminate].
  assert (S0 : suf i0 s) by (refine (suf_trans _ _ _ _ (suf_skip s)); exists (lit "def-ty "); exact Eu).
  destruct (ident_sound k s K _ _ _ S0 Ep) as (Nn & En & _).
  assert (Q : s = w ++ lit "def-ty " ++ tg_str n' ++ w' ++ i1) by (rewrite Ei at 1; rewrite Eu, En, Ej; reflexivity).
  assert (S1 : suf i1 s) by (exists (w ++ lit "def-ty " ++ tg_str n' ++ w'); rewrite Q at 1; now rewrite <- !app_assoc).
  assert (PR : forall r, pbind (defty_fields k s i1) (fun i fs => POk i (TbProduct fs)) = POk i2 b' -> r = i2 -> w_deftype k n' b' s).
  { intros r0 H _. apply bind_ok in H. destruct H as (i3 & fs & E3 & H). injection H as <- <-. destruct (fields_sound k s K _ _ _ S1 E3) as (sf & Wf & Ef).
    destruct (skip_split i3) as (w2 & Sw2 & E4). rewrite D, app_nil_r in E4. subst i3. rewrite Q, Ef. now constructor. }
  destruct (ws (ptag (lit "::")) i1) as [i3 u3| | |] eqn:E3; try (eapply PR; [exact E2|reflexivity]).
  destruct (ws_ok _ _ _ _ _ E3) as (x & j3 & x' & Sx & Ex & Epx & Sx' & Ejx & _). apply ptag_ok in Epx; [|discriminate].
  assert (Q3 : i1 = x ++ lit "::" ++ x' ++ i3) by (rewrite Ex at 1; rewrite Epx, Ejx; reflexivity).
  assert (S3 : suf i3 s) by (refine (suf_trans _ _ _ _ S1); exists (x ++ lit "::" ++ x'); rewrite Q3; now rewrite <- !app_assoc).
  apply bind_ok in E2. destruct E2 as (i4 & vs & E4 & E2). injection E2 as <- <-. unfold defty_variants in E4.
  destruct (ws (defty_variant k s) i3) as [i5 v| | |] eqn:E5; try discriminate.
  - destruct (ws_variant_sound k s K _ _ _ S3 E5) as (y & sv & y' & Sy & Wv & Sy' & Q5 & S5). destruct (sep_sound k s K _ _ _ _ _ S5 E4 D) as (l' & -> & C). cbn [app].
    destruct C as [(-> & Si)|(NE & z & s' & Sz & Wl & Q6)].
    + assert (Z : s = w ++ lit "def-ty " ++ tg_str n' ++ (w' ++ x) ++ lit "::" ++ ((x' ++ y) ++ sv ++ (y' ++ i5))) by (rewrite Q at 1; rewrite Q3, Q5; now rewrite <- !app_assoc). rewrite Z.
      constructor; auto; [now apply spaces_app|]. constructor; auto; now apply spaces_app.
    + assert (Z : s = w ++ lit "def-ty " ++ tg_str n' ++ (w' ++ x) ++ lit "::" ++ ((x' ++ y) ++ sv ++ (y' ++ z) ++ lit "|" ++ s')) by (rewrite Q at 1; rewrite Q3, Q5, Q6; now rewrite <- !app_assoc). rewrite Z.
      constructor; auto; [now apply spaces_app|]. constructor; auto; now apply spaces_app.
  - injection E4 as <- <-. destruct (skip_split i3) as (w2 & Sw2 & E6). rewrite D, app_nil_r in E6. subst i3.
    assert (Z : s = w ++ lit "def-ty " ++ tg_str n' ++ (w' ++ x) ++ lit "::" ++ (x' ++ w2)) by (rewrite Q at 1; rewrite Q3; now rewrite <- !app_assoc). rewrite Z.
    apply w_none; auto; now apply spaces_app.
Qed.
Theorem entered : forall k l s ts ts' d, sane k -> insert_text k l s ts = Ok (ts', d) -> exists n b, w_deftype k n b s /\ td_name d = tg_str n /\ body_means ts b (td_tv d).
Proof.
  intros k l s ts ts' d K H. pose proof H as H0. unfold insert_text in H. destruct (definition_type k s) as [r [n b]| | |] eqn:E; try discriminate.
  exists n, b. pose proof (only_types k r n b s K E) as W. split; [exact W|]. destruct (defines k l n b s ts ts' d K W H0) as (_ & (tv & -> & M) & _). split; [reflexivity|exact M].
Qed.
