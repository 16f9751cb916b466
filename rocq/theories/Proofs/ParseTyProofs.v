(** Definitions of types are read as they are written. *)
From Coq Require Import String List ZArith NArith Bool Arith Lia.
From Verif Require Import Model.Base Model.Utf Model.Value Model.Ast Model.Parse Model.Registry Model.ParseTy Spec.ParseSpec Spec.ParseTySpec.
From Verif Require Model.Get.
From Verif Require Import Proofs.ParseSpanProofs Proofs.ParseWriteProofs Proofs.ParseMainProofs Proofs.RegistryProofs.
Import ListNotations.

(** ** Many *)
Section Many.
  Variables (A B : Type) (line : str) (p : str -> pres A) (er : A -> B) (W sep : A -> str -> Prop) (after : A -> str -> Prop) (e : N).
  Hypothesis first : forall a s, W a s -> exists c s', s = c :: s' /\ ms c = false.
  Hypothesis ends : forall X, p (e :: X) = PErr.
  Hypothesis mark : ms e = false.
  Hypothesis reads : forall a s X, W a s -> suf (s ++ X) line -> after a X -> exists j a', p (s ++ X) = POk j a' /\ er a' = er a /\ skip j = skip X.
  Hypothesis last : forall a w X, spaces w -> after a (w ++ e :: X).
  Hypothesis between : forall a w s X, sep a w -> after a (w ++ s ++ X) /\ spaces w.

  Lemma many_end : forall f X acc, many_ws p (S f) (e :: X) acc = POk (e :: X) acc.
  Proof. intros f X acc. cbn [many_ws]. unfold ws. rewrite skip_cons by exact mark. now rewrite ends. Qed.
  Lemma many_step : forall a l s i X, w_list W sep (a :: l) s -> suf i line -> skip i = skip (s ++ e :: X) ->
    exists j a' s', ws p i = POk j a' /\ er a' = er a /\ w_list W sep l s' /\ suf j line /\ (l = [] -> j = e :: X) /\ skip j = skip (s' ++ e :: X) /\ length j < length i.
  Proof.
    intros a l s i X H Si E. inversion H as [|a0 w s0 w' Hw Ha Hw'|a0 l0 w s0 w' s' Hw Ha Hs Hl N]; subst.
    - rewrite <- !app_assoc, skip_spaces in E by auto. destruct (first _ _ Ha) as (c & s2 & Ec & Mc).
      assert (E' : skip i = s0 ++ w' ++ e :: X) by (rewrite E, Ec; cbn [app]; now apply skip_cons). assert (Sk := suf_trans _ _ _ (suf_skip i) Si). rewrite E' in Sk.
      destruct (reads a s0 (w' ++ e :: X) Ha Sk (last a w' X Hw')) as (j & a' & R & Er & Sj). rewrite (skip_spaces w' _ Hw'), skip_cons in Sj by exact mark.
      exists (e :: X), a', []. unfold ws. rewrite E', R. cbn [pbind]. rewrite Sj. repeat (split; [solve [auto | constructor]|]).
      split; [refine (suf_trans _ _ _ _ Sk); exists (s0 ++ w'); now rewrite <- app_assoc|]. split; [auto|]. split; [reflexivity|].
      assert (Ln := skip_len i). rewrite E', Ec in Ln. cbn [length app] in Ln. rewrite !app_length in Ln. cbn [length] in *. lia.
    - rewrite <- !app_assoc, skip_spaces in E by auto. destruct (first _ _ Ha) as (c & s2 & Ec & Mc).
      assert (E' : skip i = s0 ++ w' ++ s' ++ e :: X) by (rewrite E, Ec; cbn [app]; now apply skip_cons). assert (Sk := suf_trans _ _ _ (suf_skip i) Si). rewrite E' in Sk.
      destruct (between a w' s' (e :: X) Hs) as (Af & Sw). destruct (reads a s0 (w' ++ s' ++ e :: X) Ha Sk Af) as (j & a' & R & Er & Sj). rewrite (skip_spaces w' _ Sw) in Sj.
      exists (skip (s' ++ e :: X)), a', s'. unfold ws. rewrite E', R. cbn [pbind]. rewrite Sj. split; [reflexivity|]. split; [exact Er|]. split; [exact Hl|].
      split; [refine (suf_trans _ _ _ (suf_skip _) (suf_trans _ _ _ _ Sk)); exists (s0 ++ w'); now rewrite <- app_assoc|]. split; [congruence|]. split; [apply skip_idem|].
      assert (Ln := skip_len i). rewrite E', Ec in Ln. cbn [length app] in Ln. rewrite !app_length in Ln. assert (Ln2 := skip_len (s' ++ e :: X)). rewrite app_length in Ln2. lia.
  Qed.
  Lemma read_many : forall l s i X acc f, w_list W sep l s -> suf i line -> (l = [] -> i = e :: X) -> skip i = skip (s ++ e :: X) -> length i < f ->
    exists l', many_ws p f i acc = POk (e :: X) (acc ++ l') /\ map er l' = map er l.
  Proof.
    induction l as [|a l IH]; intros s i X acc f H Si I0 E L; (destruct f as [|f]; [lia|]).
    - rewrite (I0 eq_refl), many_end. exists []. now rewrite app_nil_r.
    - destruct (many_step a l s i X H Si E) as (j & a' & s' & R & Er & Hl & Sj & Z & Ej & Lj). cbn [many_ws]. rewrite R. destruct (Nat.eqb_spec (length j) (length i)); [lia|].
      destruct (IH s' j X (acc ++ [a']) f Hl Sj Z Ej ltac:(lia)) as (l' & R2 & E2). exists (a' :: l'). rewrite R2, <- app_assoc. split; [reflexivity|]. cbn. now rewrite Er, E2.
  Qed.
  Lemma read_many0 : forall l s X, w_list W sep l s -> suf (s ++ e :: X) line -> exists l', many0_ws p (s ++ e :: X) = POk (e :: X) l' /\ map er l' = map er l.
  Proof.
    intros l s X H S. destruct (read_many l s (s ++ e :: X) X [] (Datatypes.S (length (s ++ e :: X))) H S) as (l' & R & E); [|reflexivity|lia|eauto].
    intros ->. inversion H; reflexivity.
  Qed.
  Lemma read_many1 : forall l s X, l <> [] -> w_list W sep l s -> suf (s ++ e :: X) line -> exists l', many1_ws p (s ++ e :: X) = POk (e :: X) l' /\ map er l' = map er l.
  Proof.
    intros [|a l] s X N H S; [congruence|]. destruct (many_step a l s (s ++ e :: X) X H S eq_refl) as (j & a' & s' & R & Er & Hl & Sj & Z & Ej & Lj). unfold many1_ws. rewrite R. cbn [pbind].
    destruct (read_many l s' j X [a'] (Datatypes.S (length j)) Hl Sj Z Ej ltac:(lia)) as (l' & R2 & E2). exists (a' :: l'). split; [exact R2|]. cbn. now rewrite Er, E2.
  Qed.
End Many.

Section Read.
  Variables (k : lang) (line : str).
  Hypothesis K : sane k.
  Ltac inm := cbn; repeat (first [left; reflexivity|right]); fail.

  Lemma mark_stop : forall c X, In c marks -> c <> 45%N -> stop k (c :: X).
  Proof. intros c X M N. right. exists c, X. split; [reflexivity|]. apply not_id; [auto|]. now left. Qed.
  Lemma name_first : forall n, name k n -> exists c s', n = c :: s' /\ ms c = false.
  Proof. intros n ((c & s' & -> & A) & _). do 2 eexists. split; [reflexivity|]. apply (break_ms k K), id_break; auto. now apply alpha_id. Qed.
  Lemma no_name : forall c X, In c marks -> op_ident k line (c :: X) = PErr.
  Proof. intros c X M. unfold op_ident. now rewrite (alpha_mark' k K) by exact M. Qed.
  Lemma gap_stop : forall w X, gap w -> stop k (w ++ X).
  Proof. intros w X G. apply soft_stop; [auto|now apply gap_soft]. Qed.

  Lemma read_idents : forall ps s X, ps <> [] -> w_list (w_tag k) (fun _ w => gap w) ps s -> suf (s ++ 62%N :: X) line ->
    exists ps', many1_ws (op_ident k line) (s ++ 62%N :: X) = POk (62%N :: X) ps' /\ map er_tag ps' = map er_tag ps.
  Proof.
    apply (read_many1 tag tag line (op_ident k line) er_tag (w_tag k) (fun _ w => gap w) (fun _ X => stop k X) 62%N).
    - intros a s (N & ->). now apply name_first.
    - intros X. apply no_name. inm.
    - reflexivity.
    - intros a s X (N & ->) S St. destruct (read_name k line (tg_str a) X S N St) as (t & E & T). exists X, t. split; [exact E|]. split; [now apply er_text|reflexivity].
    - intros _ w X Sw. apply spaces_stop; auto. apply mark_stop; [inm|discriminate].
    - intros _ w s X G. split; [now apply gap_stop|apply G].
  Qed.
  Definition field_after (f : tfield) (X : str) : Prop := tf_params f = [] -> stop k X /\ starts 60 X = false.
  Lemma read_field : forall f s X, w_field k f s -> suf (s ++ X) line -> field_after f X -> exists j f', defty_field k line (s ++ X) = POk j f' /\ er_field f' = er_field f /\ skip j = skip X.
  Proof.
    intros [n t ps] s X (Nn & Nt & sp & Hp & ->) S Af. unfold field_after in Af. cbn [tf_name tf_ty tf_params] in *. rewrite <- !app_assoc in *.
    destruct (read_name k line (tg_str n) (lit ":" ++ tg_str t ++ sp ++ X) S Nn) as (n' & E1 & T1); [now apply stop_colon|]. unfold defty_field. rewrite E1. cbn [pbind].
    change (cut (pchar 58 (lit ":" ++ tg_str t ++ sp ++ X))) with (POk (tg_str t ++ sp ++ X) tt). cbn [pbind].
    assert (S2 : suf (tg_str t ++ sp ++ X) line) by exact (suf_trans _ _ _ (suf_cons 58%N _) (suf_trans _ _ _ (ex_intro _ (tg_str n) eq_refl) S)).
    destruct Hp as [(-> & ->)|(Np & s' & Hp & ->)].
    - destruct (Af eq_refl) as (St & Lt). destruct (read_name k line (tg_str t) X S2 Nt St) as (t' & E2 & T2). cbn [app] in *. rewrite E2. cbn [cut pbind]. rewrite Lt.
      exists X. eexists. split; [reflexivity|]. split; [|reflexivity]. unfold er_field. cbn. now rewrite (er_text n n' T1), (er_text t t' T2).
    - destruct (read_name k line (tg_str t) ((lit "<" ++ s' ++ lit ">") ++ X) S2 Nt) as (t' & E2 & T2); [cbn [app lit]; apply mark_stop; [inm|discriminate]|]. rewrite E2. cbn [cut pbind].
      rewrite <- !app_assoc in *. change (starts 60 (lit "<" ++ s' ++ lit ">" ++ X)) with true. cbn [cut pbind]. change (pchar 60 (lit "<" ++ s' ++ lit ">" ++ X)) with (POk (s' ++ 62%N :: X) tt). cbn [pbind].
      assert (S3 : suf (s' ++ 62%N :: X) line) by exact (suf_trans _ _ _ (suf_cons 60%N _) (suf_trans _ _ _ (ex_intro _ (tg_str t) eq_refl) S2)).
      destruct (read_idents ps s' X Np Hp S3) as (ps' & E3 & T3). rewrite E3. cbn [pbind]. change (ws (pchar 62) (62%N :: X)) with (POk (skip X) tt). cbn [cut pbind].
      exists (skip X). eexists. split; [reflexivity|]. split; [|apply skip_idem]. unfold er_field. cbn. now rewrite (er_text n n' T1), (er_text t t' T2), T3.
  Qed.
  Lemma spaces_not : forall c w X, ms c = false -> spaces w -> starts c X = false -> starts c (w ++ X) = false.
  Proof. intros c [|x w] X M H HX; [auto|]. cbn. apply N.eqb_neq. intros ->. assert (Z : ms c = true) by (apply ms_in, H; now left). congruence. Qed.
  Lemma read_fields : forall fs s X, w_fields k fs s -> suf (lit "{" ++ s ++ lit "}" ++ X) line -> exists fs', defty_fields k line (lit "{" ++ s ++ lit "}" ++ X) = POk X fs' /\ map er_field fs' = map er_field fs.
  Proof.
    intros fs s X H S. assert (S1 : suf (s ++ 125%N :: X) line) by exact (suf_trans _ _ _ (suf_cons 123%N _) S).
    destruct (read_many0 tfield tfield line (defty_field k line) er_field (w_field k) (fun f w => spaces w /\ (tf_params f = [] -> w <> [])) field_after 125%N) with (l := fs) (s := s) (X := X) as (fs' & E & T); auto.
    - intros f s0 (N & _ & sp & _ & ->). destruct (name_first _ N) as (c & s' & -> & M). cbn. eauto.
    - intros X0. unfold defty_field. rewrite no_name by inm. reflexivity.
    - intros f s0 X0 Hf Sf Af. destruct (read_field f s0 X0 Hf Sf Af) as (j & f' & R). eauto.
    - intros f w X0 Sw _. split; [apply spaces_stop; auto; apply mark_stop; [inm|discriminate]|]. now apply spaces_not.
    - intros f w s0 X0 (Sw & N). split; [|exact Sw]. intros Z. specialize (N Z). split; [apply gap_stop; now split|]. destruct w as [|x w]; [congruence|]. cbn. apply N.eqb_neq. intros ->.
      assert (Q : ms 60 = true) by (apply ms_in, Sw; now left). discriminate.
    - unfold defty_fields. change (pchar 123 (lit "{" ++ s ++ lit "}" ++ X)) with (POk (s ++ 125%N :: X) tt). cbn [pbind]. rewrite E. cbn [pbind]. exists fs'. split; [reflexivity|exact T].
  Qed.

  (** ** Variants *)
  Definition bar (X : str) : Prop := X = [] \/ exists X', X = 124%N :: X'.
  Lemma bar_skip : forall X, bar X -> skip X = X.
  Proof. intros X [->|(X' & ->)]; reflexivity. Qed.
  Lemma bar_stop : forall X, bar X -> stop k X.
  Proof. intros X [->|(X' & ->)]; [now left|]. apply mark_stop; [inm|discriminate]. Qed.
  Lemma read_variant : forall v s w' X i, w_variant k v s -> spaces w' -> bar X -> suf i line -> skip i = skip (s ++ w' ++ X) ->
    exists v', ws (defty_variant k line) i = POk X v' /\ er_variant v' = er_variant v /\ length X < length i /\ suf X line.
  Proof.
    intros [n o] s w' X i (N & H) Sw HX Si E. cbn [fst snd] in *. destruct (name_first _ N) as (c & n2 & En & Mc).
    assert (Sk : forall Y, skip (tg_str n ++ Y) = tg_str n ++ Y) by (intros Y; rewrite En; cbn [app]; now apply skip_cons).
    assert (Ln := skip_len i). assert (SS := suf_trans _ _ _ (suf_skip i) Si). unfold ws at 1. rewrite E in *. unfold defty_variant. destruct o as [fs|].
    - destruct H as (w & sf & Hw & Hf & ->). rewrite <- !app_assoc in *. rewrite Sk in *. unfold ws at 1. rewrite Sk.
      destruct (read_name k line (tg_str n) (w ++ lit "{" ++ sf ++ lit "}" ++ w' ++ X) SS N) as (n' & E1 & T1); [apply spaces_stop; auto; cbn [app lit]; apply mark_stop; [inm|discriminate]|]. rewrite E1. cbn [pbind].
      rewrite (skip_spaces w _ Hw). change (skip (lit "{" ++ sf ++ lit "}" ++ w' ++ X)) with (lit "{" ++ sf ++ lit "}" ++ w' ++ X).
      destruct (read_fields fs sf (w' ++ X) Hf) as (fs' & E2 & T2); [refine (suf_trans _ _ _ _ SS); exists (tg_str n ++ w); now rewrite <- app_assoc|].
      unfold ws at 1. change (skip (lit "{" ++ sf ++ lit "}" ++ w' ++ X)) with (lit "{" ++ sf ++ lit "}" ++ w' ++ X). rewrite E2. cbn [pbind popt]. rewrite (skip_spaces w' _ Sw), (bar_skip X HX). cbn [pbind].
      rewrite (bar_skip X HX). eexists. split; [reflexivity|]. split; [unfold er_variant; cbn; now rewrite (er_text n n' T1), T2|].
      split; [rewrite En in Ln; cbn [length app] in Ln; rewrite !app_length in Ln; lia|refine (suf_trans _ _ _ _ SS); exists (tg_str n ++ w ++ lit "{" ++ sf ++ lit "}" ++ w'); now rewrite <- !app_assoc].
    - subst s. rewrite Sk in *. unfold ws at 1. rewrite Sk. destruct (read_name k line (tg_str n) (w' ++ X) SS N) as (n' & E1 & T1); [apply spaces_stop; auto; now apply bar_stop|]. rewrite E1. cbn [pbind].
      rewrite (skip_spaces w' _ Sw), (bar_skip X HX). assert (F : ws (defty_fields k line) X = PErr) by (unfold ws; rewrite (bar_skip X HX); destruct HX as [->|(X' & ->)]; reflexivity).
      rewrite F. cbn [popt pbind]. rewrite (bar_skip X HX). eexists. split; [reflexivity|]. split; [unfold er_variant; cbn; now rewrite (er_text n n' T1)|].
      split; [rewrite En in Ln; cbn [length app] in Ln; rewrite !app_length in Ln; lia|refine (suf_trans _ _ _ _ SS); exists (tg_str n ++ w'); now rewrite <- app_assoc].
  Qed.
  Lemma sep_end : forall f acc, sep_variants k line (S f) [] acc = POk [] acc.
  Proof. reflexivity. Qed.
  Lemma read_variants : forall vs s, w_variants k vs s -> forall i, suf i line -> skip i = skip s ->
    exists v' X vs', ws (defty_variant k line) i = POk X v' /\ (forall f acc, length X < f -> sep_variants k line f X acc = POk [] (acc ++ vs')) /\ er_variant v' :: map er_variant vs' = map er_variant vs /\ length X < length i.
  Proof.
    intros vs s H. induction H as [v w s w' Hw Hv Hw'|v vs w s w' s' Hw Hv Hw' Hvs IH]; intros i Si E.
    - rewrite skip_spaces in E by auto. destruct (read_variant v s w' [] i Hv Hw' (or_introl eq_refl) Si) as (v' & R & Er & L & _); [now rewrite app_nil_r|].
      exists v', [], []. split; [exact R|]. split; [intros [|f] acc Lf; [lia|]; rewrite sep_end; now rewrite app_nil_r|]. split; [cbn; now rewrite Er|exact L].
    - rewrite skip_spaces in E by auto. destruct (read_variant v s w' (124%N :: s') i Hv Hw' (or_intror (ex_intro _ s' eq_refl)) Si E) as (v' & R & Er & L & SX).
      destruct (IH (skip s') (suf_trans _ _ _ (suf_skip s') (suf_trans _ _ _ (suf_cons _ _) SX)) (skip_idem s')) as (v2 & X2 & vs2 & R2 & Q2 & E2 & L2).
      exists v', (124%N :: s'), (v2 :: vs2). split; [exact R|]. split; [|split; [cbn [map]; now rewrite Er, E2|exact L]].
      intros [|f] acc Lf; [cbn in Lf; lia|]. cbn [sep_variants]. change (ws (pchar 124) (124%N :: s')) with (POk (skip s') tt). cbn beta iota. rewrite R2.
      assert (Z := skip_len s'). cbn [length] in Lf. rewrite Q2 by lia. now rewrite <- app_assoc.
  Qed.
End Read.

Lemma read_head : forall k line n w0 Y, sane k -> name k (tg_str n) -> spaces w0 -> stop k Y -> suf (w0 ++ lit "def-ty " ++ tg_str n ++ Y) line ->
  exists n', defty_name k line (w0 ++ lit "def-ty " ++ tg_str n ++ Y) = POk (skip Y) n' /\ er_tag n' = er_tag n.
Proof.
  intros k line n w0 Y K N W P S. unfold defty_name, ws. rewrite (skip_spaces w0 _ W). change (skip (lit "def-ty " ++ tg_str n ++ Y)) with (lit "def-ty " ++ tg_str n ++ Y).
  unfold ptag. rewrite (proj2 (strip_app (lit "def-ty ") _ (tg_str n ++ Y)) eq_refl). cbn [pbind].
  destruct (read_name k line (tg_str n) Y) as (n' & E & T); auto; [refine (suf_trans _ _ _ (ex_intro _ (w0 ++ lit "def-ty ") _) S); now rewrite <- app_assoc|]. rewrite E. cbn [pbind]. exists n'. split; [reflexivity|now apply er_text].
Qed.
Theorem round_trip : forall k n b s, sane k -> w_deftype k n b s -> exists r n' b', definition_type k s = POk r (n', b') /\ er_tag n' = er_tag n /\ er_body b' = er_body b.
Proof.
  intros k n b s K H. unfold definition_type, def_type_inner. destruct H as [fs w0 w1 sf w2 N W0 W1 Hf W2|vs w0 w1 sv N W0 W1 Hv|w0 w1 w2 N W0 W1 W2].
  - set (Y := w1 ++ lit "{" ++ sf ++ lit "}" ++ w2). set (line := w0 ++ lit "def-ty " ++ tg_str n ++ Y).
    destruct (read_head k line n w0 Y K N W0) as (n' & E1 & T1); [apply spaces_stop; auto; apply (mark_stop k K); [cbn; tauto|discriminate]|apply suf_refl|].
    unfold line at 2. rewrite E1. cbn [pbind]. assert (Sy : skip Y = lit "{" ++ sf ++ lit "}" ++ w2) by (unfold Y; rewrite (skip_spaces w1 _ W1); reflexivity). rewrite Sy.
    change (ws (ptag (lit "::")) (lit "{" ++ sf ++ lit "}" ++ w2)) with (PErr (A := str)). cbn iota.
    destruct (read_fields k line K fs sf w2 Hf) as (fs' & E2 & T2); [exists (w0 ++ lit "def-ty " ++ tg_str n ++ w1); unfold line, Y; now rewrite <- !app_assoc|]. rewrite E2. cbn [pbind].
    assert (Z : skip w2 = []) by (rewrite <- (app_nil_r w2), (skip_spaces w2 _ W2); reflexivity). rewrite Z. do 3 eexists. split; [reflexivity|]. split; [exact T1|]. cbn. now rewrite T2.
  - set (Y := w1 ++ lit "::" ++ sv). set (line := w0 ++ lit "def-ty " ++ tg_str n ++ Y).
    destruct (read_head k line n w0 Y K N W0) as (n' & E1 & T1); [apply spaces_stop; auto; now apply stop_colon|apply suf_refl|].
    unfold line at 2. rewrite E1. cbn [pbind]. assert (Sy : skip Y = lit "::" ++ sv) by (unfold Y; rewrite (skip_spaces w1 _ W1); reflexivity). rewrite Sy.
    change (ws (ptag (lit "::")) (lit "::" ++ sv)) with (POk (skip sv) (lit "::")). cbn iota.
    destruct (read_variants k line K vs sv Hv (skip sv)) as (v' & X & vs' & R & Q & E2 & L); [refine (suf_trans _ _ _ (suf_skip sv) _); exists (w0 ++ lit "def-ty " ++ tg_str n ++ w1 ++ lit "::"); unfold line, Y; now rewrite <- !app_assoc|apply skip_idem|].
    unfold defty_variants. rewrite R, Q by lia. cbn [pbind skip]. do 3 eexists. split; [reflexivity|]. split; [exact T1|]. cbn [er_body]. f_equal. exact E2.
  - set (Y := w1 ++ lit "::" ++ w2). set (line := w0 ++ lit "def-ty " ++ tg_str n ++ Y).
    destruct (read_head k line n w0 Y K N W0) as (n' & E1 & T1); [apply spaces_stop; auto; now apply stop_colon|apply suf_refl|].
    unfold line at 2. rewrite E1. cbn [pbind]. assert (Sy : skip Y = lit "::" ++ w2) by (unfold Y; rewrite (skip_spaces w1 _ W1); reflexivity). rewrite Sy.
    assert (Z : skip w2 = []) by (rewrite <- (app_nil_r w2), (skip_spaces w2 _ W2); reflexivity).
    change (ws (ptag (lit "::")) (lit "::" ++ w2)) with (POk (skip w2) (lit "::")). rewrite Z. cbn. do 3 eexists. split; [reflexivity|]. split; [exact T1|reflexivity].
Qed.
Theorem one_type : forall k n1 n2 b1 b2 s, sane k -> w_deftype k n1 b1 s -> w_deftype k n2 b2 s -> er_tag n1 = er_tag n2 /\ er_body b1 = er_body b2.
Proof.
  intros k n1 n2 b1 b2 s K H1 H2. destruct (round_trip k n1 b1 s K H1) as (r1 & n1' & b1' & E1 & T1 & U1). destruct (round_trip k n2 b2 s K H2) as (r2 & n2' & b2' & E2 & T2 & U2).
  rewrite E1 in E2. injection E2 as _ <- <-. split; congruence.
Qed.

(** ** The parser ends *)
Definition short {A} (r : pres A) (i : str) : Prop := match r with POk j _ => length j <= length i | PFuel => False | _ => True end.
Lemma short_bind : forall A B (r : pres A) (f : str -> A -> pres B) i, short r i -> (forall j a, length j <= length i -> short (f j a) j) -> short (pbind r f) i.
Proof. intros A B [j a| | |] f i H G; cbn in *; auto. specialize (G j a H). destruct (f j a); cbn in *; auto. lia. Qed.
Lemma short_le : forall A (r : pres A) i j, short r j -> length j <= length i -> short r i.
Proof. intros A [x a| | |] i j H L; unfold short in *; auto. lia. Qed.
Lemma short_cut : forall A (r : pres A) i, short r i -> short (cut r) i.
Proof. now intros A [j a| | |] i H. Qed.
Lemma short_ws : forall A (p : str -> pres A) i, (forall j, short (p j) j) -> short (ws p i) i.
Proof.
  intros A p i H. unfold ws. assert (Q := skip_len i). specialize (H (skip i)). destruct (p (skip i)) as [j a| | |]; cbn in *; auto. assert (Q2 := skip_len j). lia.
Qed.
Lemma short_char : forall c i, short (pchar c i) i.
Proof. intros c [|x i]; cbn; auto. destruct (N.eqb x c); cbn; auto. Qed.
Lemma short_ident : forall k line i, short (op_ident k line i) i.
Proof.
  intros k line [|c i]; cbn; auto. destruct (alpha k c); cbn; auto. unfold span1. assert (Z : forall p i a b, span p i = (a, b) -> length b <= length i).
  { intros p. induction i0 as [|x i0 IH]; intros a b H; cbn in H; [injection H as _ <-; auto|]. destruct (p x); [|injection H as _ <-; auto]. destruct (span p i0) as [a0 b0] eqn:E. injection H as _ <-. specialize (IH a0 b0 eq_refl). cbn. lia. }
  destruct (span (idchar k) (c :: i)) as [a b] eqn:E. apply Z in E. destruct a; cbn; auto.
Qed.
Lemma short_many : forall A (p : str -> pres A), (forall i, short (p i) i) -> forall f i acc, length i < f -> short (many_ws p f i acc) i.
Proof.
  intros A p H. induction f as [|f IH]; intros i acc L; [lia|]. cbn [many_ws]. assert (Q := short_ws A p i H). destruct (ws p i) as [j a| | |]; cbn in *; auto.
  destruct (Nat.eqb_spec (length j) (length i)); [exact I|]. specialize (IH j (acc ++ [a]) ltac:(lia)). destruct (many_ws p f j (acc ++ [a])); cbn in *; auto. lia.
Qed.
Lemma short_many1 : forall A (p : str -> pres A) i, (forall i, short (p i) i) -> short (many1_ws p i) i.
Proof. intros A p i H. apply short_bind; [now apply short_ws|]. intros j a _. apply short_many; auto. Qed.
Lemma short_field : forall k line i, short (defty_field k line i) i.
Proof.
  intros k line i. apply short_bind; [apply short_ident|]. intros j n _. apply short_bind; [apply short_cut, short_char|]. intros j2 u _. apply short_bind; [apply short_cut, short_ident|].
  intros j3 t _. destruct (starts 60 j3); [|cbn; auto]. apply short_bind; [|cbn; auto]. apply short_cut. apply short_bind; [apply short_char|]. intros j4 u4 _. apply short_bind; [apply short_many1; intros; apply short_ident|].
  intros j5 ps _. apply short_bind; [apply short_ws; intros; apply short_char|cbn; auto].
Qed.
Lemma short_fields : forall k line i, short (defty_fields k line i) i.
Proof.
  intros k line i. apply short_bind; [apply short_char|]. intros j u _. apply short_bind; [apply short_many; [intros; apply short_field|auto]|]. intros j2 fs _. apply short_bind; [apply short_char|cbn; auto].
Qed.
Lemma short_variant : forall k line i, short (defty_variant k line i) i.
Proof.
  intros k line i. apply short_bind; [apply short_ws; intros; apply short_ident|]. intros j n _. apply short_bind; [|cbn; auto]. assert (Q := short_ws _ (defty_fields k line) j (short_fields k line)).
  destruct (ws (defty_fields k line) j); cbn in *; auto.
Qed.
Lemma short_sep : forall k line f i acc, length i < f -> short (sep_variants k line f i acc) i.
Proof.
  intros k line. induction f as [|f IH]; intros i acc L; [lia|]. cbn [sep_variants].
  assert (Q : match ws (pchar 124) i with POk j _ => length j < length i | PFuel => False | _ => True end).
  { unfold ws. assert (Q := skip_len i). destruct (skip i) as [|x y] eqn:E; cbn; auto. destruct (N.eqb x 124); cbn; auto. assert (Q2 := skip_len y). cbn in Q. lia. }
  destruct (ws (pchar 124) i) as [j u| | |]; cbn in *; auto. assert (Q2 := short_ws _ (defty_variant k line) j (short_variant k line)). destruct (ws (defty_variant k line) j) as [j2 v| | |]; cbn in *; auto.
  specialize (IH j2 (acc ++ [v]) ltac:(lia)). destruct (sep_variants k line f j2 (acc ++ [v])); cbn in *; auto. lia.
Qed.
Theorem type_stops : forall k line, definition_type k line <> PFuel.
Proof.
  intros k line. assert (S : short (definition_type k line) line); [|intros Z; rewrite Z in S; exact S]. unfold definition_type, def_type_inner. apply short_bind.
  - apply short_ws. intros j. apply short_bind; [|intros; apply short_ident]. unfold ptag. destruct (strip (lit "def-ty ") j) as [j'|] eqn:E; cbn; auto. apply strip_app in E. subst. rewrite app_length. lia.
  - intros j n _. apply short_bind; [|intros j2 b _; destruct (skip j2); cbn; auto]. assert (P : forall j, short (let* (i, fs) := defty_fields k line j in POk i (TbProduct fs)) j) by (intros; apply short_bind; [apply short_fields|cbn; auto]).
    assert (Q : short (ws (ptag (lit "::")) j) j). { apply short_ws. intros j0. unfold ptag. destruct (strip (lit "::") j0) as [j'|] eqn:E; cbn; auto. apply strip_app in E. subst. cbn. lia. }
    destruct (ws (ptag (lit "::")) j) as [j0 u| | |]; try apply P. cbn in Q.
    apply short_le with (j := j0); [|exact Q]. apply short_bind; [|cbn; auto]. unfold defty_variants. assert (V := short_ws _ (defty_variant k line) j0 (short_variant k line)).
    destruct (ws (defty_variant k line) j0) as [j2 v| | |]; [|exact (le_n _)|exact Logic.I|exact V]. apply short_le with (j := j2); [apply short_sep; lia|exact V].
Qed.

(** ** Meaning *)
Lemma plain_er : forall f, plain_field (er_field f) = plain_field f.
Proof. intros [n t ps]. unfold plain_field. cbn. f_equal. rewrite map_map. now apply map_ext. Qed.
Lemma plain_body_er : forall b, plain_body (er_body b) = plain_body b.
Proof.
  assert (F : forall fs, map plain_field (map er_field fs) = map plain_field fs) by (intros fs; rewrite map_map; apply map_ext; apply plain_er).
  intros [vs|fs]; cbn; f_equal; [|apply F]. rewrite map_map. apply map_ext. intros [n [fs|]]; cbn; [|reflexivity]. now rewrite F.
Qed.
Lemma fields_mean : forall ts fs xs, parsed_fields ts (map plain_field fs) = Ok xs <-> Forall2 (field_means ts) fs xs.
Proof.
  intros ts. induction fs as [|f fs IH]; intros xs; cbn [map parsed_fields].
  - split; [intros H; injection H as <-; constructor|]. intros H. inversion H. reflexivity.
  - assert (P : forallb (contains_type ts) (map tg_str (tf_params f)) = true <-> Forall (fun p => exists t, is_type ts (tg_str p) t) (tf_params f)).
    { rewrite forallb_forall, Forall_forall. unfold is_type, get_type, contains_type. split; intros H x J.
      - specialize (H (tg_str x) (in_map _ _ _ J)). destruct (alookup str_eqb (tg_str x) ts); [eauto|discriminate].
      - apply in_map_iff in J. destruct J as (y & <- & J). destruct (H y J) as (t & Z). now destruct (alookup str_eqb (tg_str y) ts). }
    cbn [plain_field pf_ty pf_params pf_name]. split.
    + intros H. destruct (get_type ts (tg_str (tf_ty f))) as [t|] eqn:T; [|discriminate]. destruct (forallb (contains_type ts) (map tg_str (tf_params f))) eqn:C; [|discriminate].
      destruct (parsed_fields ts (map plain_field fs)) as [l|e|] eqn:E; cbn in H; try discriminate. injection H as <-. constructor; [|now apply IH]. split; [reflexivity|]. split; [exact T|]. now apply P.
    + intros H. inversion H as [|f0 x fs0 xs0 (A1 & A2 & A3) B]; subst. unfold is_type in A2. rewrite A2, (proj2 P A3). apply IH in B. rewrite B. cbn. destruct x. cbn in *. now subst.
Qed.
Lemma variants_mean : forall ts vs xs, parsed_variants ts (map (fun v : tvariant => (tg_str (fst v), option_map (map plain_field) (snd v))) vs) = Ok xs <-> Forall2 (variant_means ts) vs xs.
Proof.
  intros ts. induction vs as [|[n [fs|]] vs IH]; intros xs; cbn [map parsed_variants fst snd option_map].
  - split; [intros H; injection H as <-; constructor|]. intros H. inversion H. reflexivity.
  - split.
    + intros H. destruct (parsed_fields ts (map plain_field fs)) as [l|e|] eqn:E; cbn in H; try discriminate. destruct (parsed_variants _ _) as [m|e|] eqn:M; cbn in H; try discriminate. injection H as <-.
      constructor; [|now apply IH]. split; [reflexivity|]. cbn. now apply fields_mean.
    + intros H. inversion H as [|v0 [xn [xf|]] vs0 xs0 (A1 & A2) B]; subst; cbn in *; [|destruct A2]. apply fields_mean in A2. rewrite A2. cbn. apply IH in B. rewrite B. cbn. now subst.
  - split.
    + intros H. destruct (parsed_variants _ _) as [m|e|] eqn:M; cbn in H; try discriminate. injection H as <-. constructor; [|now apply IH]. split; [reflexivity|exact I].
    + intros H. inversion H as [|v0 [xn [xf|]] vs0 xs0 (A1 & A2) B]; subst; cbn in *; [destruct A2|]. apply IH in B. rewrite B. cbn. now subst.
Qed.
Lemma body_mean : forall ts l n b d, from_parsed_def ts (PType l n (plain_body b)) = Ok d <-> exists tv, d = TyDef n tv /\ body_means ts b tv.
Proof.
  intros ts l n [vs|fs] d; unfold from_parsed_def; cbn [pt_tv pt_name plain_body].
  - split.
    + intros H. destruct (parsed_variants _ _) as [m|e|] eqn:M; cbn in H; try discriminate. injection H as <-. exists (TSum m). split; [reflexivity|]. now apply variants_mean.
    + intros ([xs|xs] & -> & H); cbn in H; [|destruct H]. apply variants_mean in H. now rewrite H.
  - split.
    + intros H. destruct (parsed_fields _ _) as [m|e|] eqn:M; cbn in H; try discriminate. injection H as <-. exists (TProduct m). split; [reflexivity|]. now apply fields_mean.
    + intros ([xs|xs] & -> & H); cbn in H; [destruct H|]. apply fields_mean in H. now rewrite H.
Qed.
Lemma insert_written : forall k l n b s ts, sane k -> w_deftype k n b s -> insert_text k l s ts = insert_type ts (PType l (tg_str n) (plain_body b)).
Proof.
  intros k l n b s ts K H. destruct (round_trip k n b s K H) as (r & n' & b' & E & T & U). unfold insert_text. rewrite E. f_equal. unfold er_tag in T. injection T as T.
  rewrite T. f_equal. rewrite <- (plain_body_er b'), U. apply plain_body_er.
Qed.
Theorem defines : forall k l n b s ts ts' d, sane k -> w_deftype k n b s -> insert_text k l s ts = Ok (ts', d) ->
  get_type ts (tg_str n) = None /\ (exists tv, d = TyDef (tg_str n) tv /\ body_means ts b tv) /\ get_type ts' (tg_str n) = Some (TDef d) /\ forall m, m <> tg_str n -> get_type ts' m = get_type ts m.
Proof.
  intros k l n b s ts ts' d K H E. rewrite (insert_written k l n b s ts K H) in E. unfold insert_type in E. destruct (from_parsed_def _ _) as [d0|e|] eqn:F; cbn [rbind] in E; try discriminate.
  destruct (contains_type ts (td_name d0)) eqn:C; [discriminate|]. injection E as <- <-. apply body_mean in F. destruct F as (tv & -> & B). cbn [td_name pt_loc] in *.
  split; [unfold contains_type, get_type in *; destruct (alookup str_eqb (tg_str n) ts); [discriminate|reflexivity]|]. split; [eauto|]. unfold get_type. split.
  - rewrite (RegistryProofs.alookup_ainsert _ _ str_eqb RegistryProofs.str_eqb_sym RegistryProofs.str_eqb_trans). now rewrite str_eqb_refl.
  - intros m N. rewrite (RegistryProofs.alookup_ainsert _ _ str_eqb RegistryProofs.str_eqb_sym RegistryProofs.str_eqb_trans). destruct (str_eqb (tg_str n) m) eqn:Z; [|reflexivity]. apply str_eqb_eq in Z. congruence.
Qed.
Theorem accepts : forall k l n b s ts tv, sane k -> w_deftype k n b s -> get_type ts (tg_str n) = None -> body_means ts b tv -> exists ts', insert_text k l s ts = Ok (ts', TyDef (tg_str n) tv).
Proof.
  intros k l n b s ts tv K H N B. rewrite (insert_written k l n b s ts K H). unfold insert_type. rewrite (proj2 (body_mean ts l (tg_str n) b (TyDef (tg_str n) tv))) by eauto. cbn [rbind td_name].
  assert (C : contains_type ts (tg_str n) = false) by (unfold contains_type, get_type in *; destruct (alookup str_eqb (tg_str n) ts); [discriminate|reflexivity]). rewrite C. eauto.
Qed.

(** ** Fields *)
Lemma index_fields : forall ts fs xs, Forall2 (field_means ts) fs xs -> NoDup (map (fun f => tg_str (tf_name f)) fs) -> forall i f, nth_error fs i = Some f ->
  exists t, Get.field_index (tg_str (tf_name f)) xs = Some (i, t) /\ is_type ts (tg_str (tf_ty f)) t.
Proof.
  intros ts fs xs H. induction H as [|f0 [n0 t0] fs xs (A1 & A2 & A3) H IH]; intros ND i f N; [destruct i; discriminate|]. cbn [map] in ND. apply NoDup_cons_iff in ND. destruct ND as (ND1 & ND). cbn [fst snd] in *. subst n0.
  destruct i as [|i]; cbn [nth_error] in N; cbn [Get.field_index].
  - injection N as <-. rewrite str_eqb_refl. eauto.
  - destruct (str_eqb (tg_str (tf_name f0)) (tg_str (tf_name f))) eqn:E.
    + exfalso. apply str_eqb_eq in E. apply ND1. rewrite E. apply in_map_iff. exists f. split; [reflexivity|]. now apply nth_error_In in N.
    + destruct (IH ND i f N) as (t & Z & T). rewrite Z. eauto.
Qed.
Theorem field_read : forall ts n fs xs i f, body_means ts (TbProduct fs) (TProduct xs) -> NoDup (map (fun f => tg_str (tf_name f)) fs) -> nth_error fs i = Some f ->
  exists t, Get.field_accessor (TDef (TyDef n (TProduct xs))) (tg_str (tf_name f)) = Ok (i, t) /\ is_type ts (tg_str (tf_ty f)) t.
Proof. intros ts n fs xs i f H ND N. destruct (index_fields ts fs xs H ND i f N) as (t & E & T). exists t. cbn. rewrite E. auto. Qed.
