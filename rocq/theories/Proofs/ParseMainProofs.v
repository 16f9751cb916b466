(** Expressions and definitions as a whole. *)
From Coq Require Import String List ZArith NArith Bool Arith Lia.
From Verif Require Import Model.Base Model.Utf Model.Ast Model.Parse Spec.ParseSpec Proofs.ParseSpanProofs Proofs.ParseWriteProofs.
Import ListNotations.

Lemma expr_p_good : forall k line i, suf i line -> good true (expr_sp line) i (expr_p k line i).
Proof. intros k line i H. apply (parse_good k line (enough i)); [auto|]. unfold enough. lia. Qed.

Lemma expression_stops : forall k line, expression k line <> PFuel.
Proof.
  intros k line H. unfold expression, no_trailing in H. assert (G := expr_p_good k line line (suf_refl _)).
  destruct (expr_p k line line) as [j e| | |]; cbn in *; try discriminate; [|exact G]. destruct (blank k j); discriminate.
Qed.
Lemma expression_spans : forall k line r e, expression k line = POk r e -> sp_expr line 0 (byte_len line) e.
Proof.
  intros k line r e H. unfold expression, no_trailing in H. assert (G := expr_p_good k line line (suf_refl _)).
  destruct (expr_p k line line) as [j x| | |]; cbn in *; try discriminate. destruct (blank k j); [|discriminate]. injection H as <- <-.
  destruct G as (_ & _ & X & _). destruct x as [t bs out]. inversion X as [lo m hi t' bs' out' A B C D]; subst. apply sp_expr_intro with (m := m); auto.
  eapply sp_tag_wide; [exact A|lia|apply off_max].
Qed.

Lemma def_param_good : forall k line i, suf i line -> good true (fun _ _ _ => True) i (def_param k line i).
Proof.
  intros k line i H. unfold def_param. assert (G := op_ident_good k line i H). destruct (op_ident k line i) as [j n| | |]; cbn [pbind]; try exact I; [|exact G].
  destruct G as (S & L & _). cbn in L. destruct (starts 58 j); [|cbn; auto]. assert (S1 := suf_tl j).
  assert (Hj : suf (tl j) line) by exact (suf_trans _ _ _ S1 (suf_trans _ _ _ S H)).
  assert (G := op_ident_good k line (tl j) Hj). destruct (op_ident k line (tl j)) as [j2 t| | |]; cbn in *; auto. destruct G as (S2 & L2 & _).
  split; [exact (suf_trans _ _ _ S2 (suf_trans _ _ _ S1 S))|]. split; [apply suf_len in S1; lia|auto].
Qed.
Lemma many_params_good : forall k line f i ps, suf i line -> length i < f -> good false (fun _ _ _ => True) i (many_params k line f i ps).
Proof.
  intros k line. induction f as [|f IH]; intros i ps H L; [lia|]. cbn [many_params].
  assert (G : good true (fun _ _ (_ : aparam) => True) i (ws (def_param k line) i)).
  { apply (ws_good line); auto. intros i' H'. now apply def_param_good. }
  destruct (ws (def_param k line) i) as [j p| | |]; cbn in *; auto.
  - destruct G as (S & Lj & _). destruct (Nat.eqb_spec (length j) (length i)); [exact I|].
    assert (X := IH j (ps ++ [p]) (suf_trans _ _ _ S H) ltac:(lia)). destruct (many_params k line f j (ps ++ [p])); cbn in *; auto.
    destruct X as (S1 & _). split; [exact (suf_trans _ _ _ S1 S)|auto].
  - split; [apply suf_refl|auto].
Qed.
Definition tt3 {A} (_ _ : str) (_ : A) : Prop := True.
Lemma definition_stops : forall k line, definition_impl k line <> PFuel.
Proof.
  intros k line H. unfold definition_impl, def_impl in H.
  assert (G1 : good true tt3 line (def_op k line line)).
  { unfold def_op. eapply good_bind with (n := true) (P := tt3).
    - apply (ws_good line); [apply suf_refl| |intros; exact I]. intros i Hi. eapply good_bind; [apply ptag_good; discriminate|].
      intros j u S L E. assert (G := op_good k line j (suf_trans _ _ _ S Hi)). destruct (op k line j) as [j2 o| | |]; cbn in *; auto.
      destruct G as (S2 & L2 & _). split; [exact (suf_trans _ _ _ S2 S)|]. split; [lia|exact I].
    - intros j o S L _. destruct (is_op o) as [[t|]| |]; cbn; auto. split; [auto|split; [auto|exact I]]. }
  destruct (def_op k line line) as [i1 nm| | |]; cbn [pbind] in H; try discriminate; [|exact G1]. destruct G1 as (H1 & _ & _).
  assert (G2 : good false tt3 i1 (ws (fun i => popt i (op_ident k line i)) i1)).
  { unfold ws. assert (S := suf_skip i1). assert (G := op_ident_good k line (skip i1) (suf_trans _ _ _ S H1)).
    destruct (op_ident k line (skip i1)) as [j t| | |]; cbn in *; auto.
    - destruct G as (S2 & _). split; [exact (suf_trans _ _ _ (suf_skip j) (suf_trans _ _ _ S2 S))|]. split; [auto|exact I].
    - split; [exact (suf_trans _ _ _ (suf_skip _) S)|]. split; [auto|exact I]. }
  destruct (ws (fun i => popt i (op_ident k line i)) i1) as [i2 ity| | |]; cbn [pbind] in H; try discriminate; [|exact G2]. destruct G2 as (S2 & _ & _).
  assert (H2 : suf i2 line) by exact (suf_trans _ _ _ S2 H1).
  assert (G3 : good false tt3 i2 (def_params k line i2)).
  { unfold def_params. assert (G := pchar_good 40 i2). destruct (pchar 40 i2) as [j u| | |]; cbn [pbind]; try exact I; [|exact G]. destruct G as (S & _ & _).
    assert (G := many_params_good k line (Datatypes.S (length j)) j [] (suf_trans _ _ _ S H2) ltac:(lia)). destruct (many_params k line (Datatypes.S (length j)) j []) as [j2 ps| | |]; cbn [pbind]; try exact I; [|exact G].
    destruct G as (S3 & _ & _). assert (G := pchar_good 41 j2). destruct (pchar 41 j2) as [j3 u3| | |]; cbn [pbind]; try exact I; [|exact G].
    destruct G as (S4 & _ & _). destruct (repeats [] ps); cbn; [auto|]. split; [exact (suf_trans _ _ _ S4 (suf_trans _ _ _ S3 S))|split; [auto|exact I]]. }
  destruct (def_params k line i2) as [i3 ps| | |]; cbn [pbind] in H; try discriminate; [|exact G3]. destruct G3 as (S3 & _ & _).
  assert (H3 : suf i3 line) by exact (suf_trans _ _ _ S3 H2).
  unfold no_trailing, ws in H. assert (Hs : suf (skip i3) line) by exact (suf_trans _ _ _ (suf_skip _) H3).
  assert (G := pchar_good 123 (skip i3)). destruct (pchar 123 (skip i3)) as [j u| | |]; cbn [pbind] in H; try discriminate; [|exact G]. destruct G as (S4 & _ & _).
  assert (G := expr_p_good k line (skip j) (suf_trans _ _ _ (suf_skip _) (suf_trans _ _ _ S4 Hs))).
  destruct (expr_p k line (skip j)) as [j5 e| | |]; cbn [pbind] in H; try discriminate; [|exact G].
  destruct (pchar 125 (skip j5)) as [j6 u6| | |] eqn:E6; cbn [pbind] in H; try discriminate.
  - destruct (blank k (skip j6)); cbn in H; discriminate.
  - assert (G' := pchar_good 125 (skip j5)). rewrite E6 in G'. exact G'.
Qed.

(** ** Round trip *)
Lemma read_blocks : forall k line f i bs s rest, sane k -> w_blocks k bs s -> hard rest -> starts 124 rest = false -> suf i line ->
  skip i = skip (s ++ rest) -> 4 * length i + 2 < f ->
  exists e', p_expr k line f i = POk rest e' /\ er_expr e' = Expr (Tag 0 0 []) (map er_block bs) None.
Proof.
  intros k line f i bs s rest Hk Hb R N S E L. destruct f as [|f]; [lia|]. destruct (read_all k line Hk) as (_ & _ & _ & _ & RB).
  destruct (RB bs s Hb i rest f f R N S E ltac:(lia) ltac:(lia)) as (r & b' & bs' & E1 & E2 & E3 & E4 & E5).
  rewrite p_expr_S. cbv zeta. rewrite E1. cbn [pbind]. rewrite E2. cbn [pbind]. destruct f as [|f]; [lia|].
  unfold ws. rewrite (hard_skip rest R), (no_block k line Hk f rest R). cbn [pbind]. eexists. split; [reflexivity|]. cbn [er_expr]. now rewrite <- E3.
Qed.
Lemma round_trip : forall k e s, sane k -> w_expr k e s -> exists e', expression k s = POk [] e' /\ er_expr e' = er_expr e.
Proof.
  intros k [t bs out] s Hk [-> Hb]. destruct (read_blocks k s (enough s) s bs s [] Hk Hb) as (e' & E & Er); [now left|reflexivity|apply suf_refl|now rewrite app_nil_r|unfold enough; lia|].
  exists e'. split; [|exact Er]. unfold expression, no_trailing, expr_p. rewrite E. reflexivity.
Qed.
Lemma one_tree : forall k e1 e2 s, sane k -> w_expr k e1 s -> w_expr k e2 s -> er_expr e1 = er_expr e2.
Proof.
  intros k e1 e2 s Hk H1 H2. destruct (round_trip k e1 s Hk H1) as (x & E & X). destruct (round_trip k e2 s Hk H2) as (y & F & Y). congruence.
Qed.

(** ** Parameters *)
Lemma repeats_spec : forall ps seen, repeats seen ps = false <-> NoDup (map param_name ps) /\ forall p, In p ps -> ~ In (param_name p) seen.
Proof.
  induction ps as [|[n t] ps IH]; intros seen; cbn [repeats map].
  - split; [intros _; split; [constructor|intros p []]|reflexivity].
  - destruct (existsb (str_eqb (tg_str n)) seen) eqn:E.
    + split; [discriminate|]. intros [_ H]. exfalso. apply existsb_exists in E. destruct E as (x & Hx & Ex). apply str_eqb_eq in Ex. subst x.
      exact (H (n, t) (or_introl eq_refl) Hx).
    + rewrite IH. assert (Nn : ~ In (tg_str n) seen).
      { intros I. assert (X : existsb (str_eqb (tg_str n)) seen = true) by (apply existsb_exists; exists (tg_str n); split; [auto|now apply str_eqb_eq]). congruence. }
      split.
      * intros [D H]. split.
        { constructor; [|exact D]. intros I. apply in_map_iff in I. destruct I as (p & Ep & Ip). apply (H p Ip). left. exact (eq_sym Ep). }
        { intros p [<-|Ip] I; [exact (Nn I)|]. apply (H p Ip). now right. }
      * intros [D H]. inversion D as [|? ? D1 D2]; subst. split; [auto|]. intros p Ip [I|I].
        { apply D1. apply in_map_iff. exists p. split; [exact (eq_sym I)|auto]. }
        { exact (H p (or_intror Ip) I). }
Qed.
Lemma params_distinct : forall k line r n ity ps e, definition_impl k line = POk r (n, ity, ps, e) -> NoDup (map param_name ps).
Proof.
  intros k line r n ity ps e H. unfold definition_impl, def_impl in H. destruct (def_op k line line) as [i1 nm| | |]; cbn [pbind] in H; try discriminate.
  destruct (ws (fun i => popt i (op_ident k line i)) i1) as [i2 it| | |]; cbn [pbind] in H; try discriminate.
  destruct (def_params k line i2) as [i3 qs| | |] eqn:E; cbn [pbind] in H; try discriminate.
  destruct (no_trailing k _ i3) as [i4 x| | |]; cbn [pbind] in H; try discriminate. injection H as _ _ _ <- _.
  unfold def_params in E. destruct (pchar 40 i2) as [j u| | |]; cbn [pbind] in E; try discriminate.
  destruct (many_params k line (S (length j)) j []) as [j2 qs2| | |]; cbn [pbind] in E; try discriminate.
  destruct (pchar 41 j2) as [j3 u3| | |]; cbn [pbind] in E; try discriminate. destruct (repeats [] qs2) eqn:R; [discriminate|]. injection E as _ <-.
  now apply repeats_spec in R.
Qed.

Section R.
  Variable k : lang.
  Variable line : str.
  Hypothesis K : sane k.
  Ltac inm := cbn; repeat (first [left; reflexivity|right]); fail.

  Lemma paren_stop : forall c X, c = 40%N \/ c = 41%N -> stop k (c :: X).
  Proof. intros c X H. right. exists c, X. split; [reflexivity|]. apply not_id; [auto|]. left. destruct H as [-> | ->]; (split; [inm|discriminate]). Qed.
  Lemma spaces_stop : forall w X, spaces w -> stop k X -> stop k (w ++ X).
  Proof.
    intros [|c w] X H HX; [auto|]. right. exists c, (w ++ X). split; [reflexivity|]. apply not_id; [auto|]. right. apply ms_in. apply H. now left.
  Qed.
  Lemma gap_58 : forall w X, spaces w -> starts 58 X = false -> starts 58 (w ++ X) = false.
  Proof.
    intros [|c w] X H HX; [auto|]. cbn. apply N.eqb_neq. intros ->. specialize (H 58%N (or_introl eq_refl)). cbn in H. repeat (destruct H as [H|H]; [discriminate|]). destruct H.
  Qed.
  Lemma read_param : forall p s X, w_param k p s -> suf (s ++ X) line -> stop k X -> starts 58 X = false ->
    exists p', def_param k line (s ++ X) = POk X p' /\ er_param p' = er_param p.
  Proof.
    intros [n o] s X (N & st & Ht & ->) S P E. cbn [fst snd] in *. rewrite <- app_assoc in *. unfold def_param.
    destruct o as [t|]; cbn in Ht.
    - destruct Ht as [Nt ->]. destruct (read_name k line (tg_str n) (58%N :: tg_str t ++ X)) as (n' & E1 & T1); auto; [now apply stop_colon|].
      change ((58%N :: tg_str t) ++ X) with (58%N :: tg_str t ++ X). rewrite E1. cbn [pbind]. change (starts 58 (58%N :: tg_str t ++ X)) with true. cbn [tl].
      destruct (read_name k line (tg_str t) X) as (t' & E2 & T2); auto; [exact (suf_trans _ _ _ (suf_cons _ _) (suf_trans _ _ _ (ex_intro _ (tg_str n) eq_refl) S))|].
      rewrite E2. cbn [pbind]. eexists. split; [reflexivity|]. unfold er_param. cbn. now rewrite (er_text n n' T1), (er_text t t' T2).
    - subst st. cbn [app] in *. destruct (read_name k line (tg_str n) X) as (n' & E1 & T1); auto. rewrite E1. cbn [pbind]. rewrite E.
      eexists. split; [reflexivity|]. unfold er_param. cbn. now rewrite (er_text n n' T1).
  Qed.
  Lemma param_first : forall p s, w_param k p s -> exists c s', s = c :: s' /\ ms c = false.
  Proof.
    intros p s (((c & s' & E & A) & _) & st & _ & ->). rewrite E. cbn. do 2 eexists. split; [reflexivity|]. apply (break_ms k K). apply id_break; auto. now apply alpha_id.
  Qed.
  Lemma params_end : forall f X acc, many_params k line (S f) (lit ")" ++ X) acc = POk (lit ")" ++ X) acc.
  Proof.
    intros f X acc. cbn [many_params]. unfold ws. change (skip (lit ")" ++ X)) with (41%N :: X). unfold def_param, op_ident.
    rewrite (alpha_mark' k K) by inm. reflexivity.
  Qed.
  Lemma read_params : forall ps s, w_params k ps s -> forall i X acc f, suf i line -> (ps = [] -> i = lit ")" ++ X) -> skip i = skip (s ++ lit ")" ++ X) -> length i < f ->
    exists ps', many_params k line f i acc = POk (lit ")" ++ X) (acc ++ ps') /\ map er_param ps' = map er_param ps.
  Proof.
    intros ps s H. induction H as [|p w s w' Hw Hp Hw'|p ps w s w' s' Hw Hp Hw' Hps IH N]; intros i X acc f S I0 E L; (destruct f as [|f]; [lia|]).
    - rewrite (I0 eq_refl). exists []. rewrite app_nil_r. split; [apply params_end|reflexivity].
    - rewrite <- !app_assoc, skip_spaces in E by auto. destruct (param_first p s Hp) as (c & s2 & Ec & Mc).
      assert (E' : skip i = s ++ w' ++ lit ")" ++ X) by (rewrite E, Ec; cbn [app]; now apply skip_cons). clear E.
      assert (Sk := suf_trans _ _ _ (suf_skip i) S). rewrite E' in Sk.
      destruct (read_param p s (w' ++ lit ")" ++ X) Hp Sk) as (p' & E1 & E2); [apply spaces_stop; [auto|apply paren_stop; now right]|now apply gap_58|].
      cbn [many_params]. unfold ws. rewrite E', E1. cbn [pbind]. rewrite (skip_spaces w' _ Hw'). change (skip (lit ")" ++ X)) with (lit ")" ++ X).
      assert (Ln := skip_len i). rewrite E', Ec in Ln. cbn [length app] in Ln. rewrite !app_length in Ln.
      destruct (Nat.eqb_spec (length (lit ")" ++ X)) (length i)) as [Q|Q]; [rewrite app_length in Q; lia|]. destruct f as [|f]; [lia|].
      rewrite params_end. exists [p']. split; [reflexivity|]. cbn. now rewrite E2.
    - rewrite <- !app_assoc, skip_spaces in E by auto. destruct (param_first p s Hp) as (c & s2 & Ec & Mc).
      assert (E' : skip i = s ++ w' ++ s' ++ lit ")" ++ X) by (rewrite E, Ec; cbn [app]; now apply skip_cons). clear E.
      assert (Sk := suf_trans _ _ _ (suf_skip i) S). rewrite E' in Sk.
      destruct (read_param p s (w' ++ s' ++ lit ")" ++ X) Hp Sk) as (p' & E1 & E2); [apply soft_stop; [auto|now apply gap_soft]|apply soft_58; [now apply gap_soft]|].
      cbn [many_params]. unfold ws. rewrite E', E1. cbn [pbind]. destruct Hw' as [Nw Hw']. rewrite (skip_spaces w' _ Hw').
      assert (Ln := skip_len i). rewrite E', Ec in Ln. cbn [length app] in Ln. rewrite !app_length in Ln. assert (Ln2 := skip_len (s' ++ lit ")" ++ X)). rewrite !app_length in Ln2.
      destruct (Nat.eqb_spec (length (skip (s' ++ lit ")" ++ X))) (length i)) as [Q|Q]; [lia|].
      destruct (IH (skip (s' ++ lit ")" ++ X)) X (acc ++ [p']) f) as (ps' & E3 & E4).
      + refine (suf_trans _ _ _ (suf_skip _) (suf_trans _ _ _ _ Sk)). exists (s ++ w'). now rewrite <- !app_assoc.
      + congruence.
      + apply skip_idem.
      + lia.
      + rewrite E3. exists (p' :: ps'). rewrite <- app_assoc. split; [reflexivity|]. cbn. now rewrite E2, E4.
  Qed.
  Lemma er_names : forall ps qs, map er_param ps = map er_param qs -> map param_name ps = map param_name qs.
  Proof.
    induction ps as [|[n o] ps IH]; intros [|[n' o'] qs] H; try discriminate; [reflexivity|]. injection H as H1 H2 H3. cbn. unfold param_name at 1 3. cbn.
    f_equal; [exact H1|now apply IH].
  Qed.
  Lemma read_def_params : forall ps s X, w_params k ps s -> suf (lit "(" ++ s ++ lit ")" ++ X) line ->
    (NoDup (map param_name ps) -> exists ps', def_params k line (lit "(" ++ s ++ lit ")" ++ X) = POk X ps' /\ map er_param ps' = map er_param ps) /\
    (~ NoDup (map param_name ps) -> def_params k line (lit "(" ++ s ++ lit ")" ++ X) = PErr).
  Proof.
    intros ps s X H S. assert (S1 := suf_trans _ _ _ (suf_cons _ _) S : suf (s ++ lit ")" ++ X) line).
    destruct (read_params ps s H (s ++ lit ")" ++ X) X [] (Datatypes.S (length (s ++ lit ")" ++ X))) S1) as (ps' & E1 & E2); [|reflexivity|lia|].
    { intros ->. inversion H; reflexivity. }
    cbn [app] in E1.
    assert (D : def_params k line (lit "(" ++ s ++ lit ")" ++ X) = if repeats [] ps' then PErr else POk X ps').
    { unfold def_params. change (pchar 40 (lit "(" ++ s ++ lit ")" ++ X)) with (POk (s ++ lit ")" ++ X) tt). cbn [pbind]. rewrite E1. reflexivity. }
    rewrite D. assert (R := repeats_spec ps' []). rewrite (er_names _ _ E2) in R. destruct (repeats [] ps').
    - split; [intros N; exfalso|reflexivity]. assert (X1 : true = false); [|discriminate]. apply R. split; [auto|]. intros p _ [].
    - split; [intros _; exists ps'; auto|]. intros N. exfalso. apply N. now apply R.
  Qed.

  Lemma spaces_op_stop : forall w c X, spaces w -> c = 40%N \/ gap w -> op_stop k (w ++ c :: X).
  Proof.
    intros [|x w] c X H HX.
    - destruct HX as [->|[N _]]; [|congruence]. cbn [app]. split; [apply paren_stop; now left|]. split; [reflexivity|]. split; [reflexivity|discriminate].
    - apply soft_op_stop; [auto|]. apply gap_soft. split; [discriminate|auto].
  Qed.
  Lemma read_def_op : forall n w0 Y, In (tg_str n) symbols \/ names k (tg_str n) -> spaces w0 -> op_stop k Y -> suf (w0 ++ lit "def " ++ tg_str n ++ Y) line ->
    exists n', def_op k line (w0 ++ lit "def " ++ tg_str n ++ Y) = POk (skip Y) n' /\ er_tag n' = er_tag n.
  Proof.
    intros n w0 Y N W P S. unfold def_op, ws. rewrite (skip_spaces w0 _ W). change (skip (lit "def " ++ tg_str n ++ Y)) with (lit "def " ++ tg_str n ++ Y).
    unfold ptag. rewrite (proj2 (strip_app (lit "def ") _ (tg_str n ++ Y)) eq_refl). cbn [pbind].
    destruct (read_op k line K (OpSingle n) (tg_str n) Y) as (o' & E & Er); [now split| |auto|].
    { refine (suf_trans _ _ _ (ex_intro _ (w0 ++ lit "def ") _) S). now rewrite <- app_assoc. }
    rewrite E. cbn [pbind]. destruct o' as [t|]; [|discriminate]. cbn [is_op]. exists t. split; [reflexivity|]. cbn in Er. injection Er as Er. now apply er_text.
  Qed.
  Lemma read_body : forall e se w2 w3, w_expr k e se -> spaces w2 -> spaces w3 -> suf (w2 ++ lit "{" ++ se ++ lit "}" ++ w3) line ->
    exists e', no_trailing k (ws (fun i => let* (i, _) := pchar 123 i in let* (i, e) := ws (expr_p k line) i in let* (i, _) := pchar 125 i in POk i e))
      (w2 ++ lit "{" ++ se ++ lit "}" ++ w3) = POk [] e' /\ er_expr e' = er_expr e.
  Proof.
    intros [t bs out] se w2 w3 [-> Hb] W2 W3 S. assert (S1 := suf_trans _ _ _ (ex_intro _ w2 eq_refl) S). assert (S2 := suf_trans _ _ _ (suf_cons _ _) S1 : suf (se ++ lit "}" ++ w3) line).
    destruct (read_blocks k line (enough (skip (se ++ lit "}" ++ w3))) (skip (se ++ lit "}" ++ w3)) bs se (lit "}" ++ w3) K Hb) as (e' & E & Er).
    - right. do 2 eexists. split; [reflexivity|now right].
    - reflexivity.
    - exact (suf_trans _ _ _ (suf_skip _) S2).
    - apply skip_idem.
    - unfold enough. lia.
    - exists e'. split; [|exact Er]. unfold no_trailing, ws. rewrite (skip_spaces w2 _ W2). change (skip (lit "{" ++ se ++ lit "}" ++ w3)) with (lit "{" ++ se ++ lit "}" ++ w3).
      change (pchar 123 (lit "{" ++ se ++ lit "}" ++ w3)) with (POk (se ++ lit "}" ++ w3) tt). cbn [pbind]. unfold expr_p. rewrite E. cbn [pbind].
      change (skip (lit "}" ++ w3)) with (lit "}" ++ w3). change (pchar 125 (lit "}" ++ w3)) with (POk w3 tt). cbn [pbind].
      rewrite <- (app_nil_r w3), (skip_spaces w3 _ W3). reflexivity.
  Qed.
End R.

Lemma read_def : forall k n ity ps e s, sane k -> w_def k n ity ps e s ->
  (NoDup (map param_name ps) -> exists n' ity' ps' e', definition_impl k s = POk [] (n', ity', ps', e') /\
     er_tag n' = er_tag n /\ option_map er_tag ity' = option_map er_tag ity /\ map er_param ps' = map er_param ps /\ er_expr e' = er_expr e) /\
  (~ NoDup (map param_name ps) -> definition_impl k s = PErr).
Proof.
  intros k n ity ps e s K H. destruct H as [n ps e w0 w1 sp w2 w3 se Nn W0 W1 Hps W2 He W3|n ty ps e w0 w1 w1' sp w2 w3 se Nn Nt W0 W1 W1' Hps W2 He W3].
  - set (Z := lit ")" ++ w2 ++ lit "{" ++ se ++ lit "}" ++ w3). set (Y := lit "(" ++ sp ++ Z). set (line := w0 ++ lit "def " ++ tg_str n ++ w1 ++ Y).
    assert (Sy : suf Y line) by (exists (w0 ++ lit "def " ++ tg_str n ++ w1); unfold line; now rewrite <- !app_assoc).
    assert (Sb : suf (w2 ++ lit "{" ++ se ++ lit "}" ++ w3) line).
    { refine (suf_trans _ _ _ _ Sy). exists (lit "(" ++ sp ++ lit ")"). unfold Y, Z. now rewrite <- !app_assoc. }
    assert (D : exists n', def_op k line line = POk Y n' /\ er_tag n' = er_tag n).
    { destruct (read_def_op k line K n w0 (w1 ++ Y) Nn W0) as (n' & E & Er); [exact (spaces_op_stop k K w1 40%N (sp ++ Z) W1 (or_introl eq_refl))|apply suf_refl|].
      rewrite (skip_spaces w1 _ W1) in E. exists n'. split; [exact E|exact Er]. }
    destruct D as (n' & E1 & R1). unfold definition_impl, def_impl. rewrite E1. cbn [pbind].
    assert (T : ws (fun i => popt i (op_ident k line i)) Y = POk Y None).
    { unfold ws. change (skip Y) with Y. unfold op_ident. cbn [Y app lit]. rewrite (alpha_mark' k K) by (cbn; repeat (first [left; reflexivity|right])). reflexivity. }
    rewrite T. cbn [pbind]. destruct (read_def_params k line K ps sp (w2 ++ lit "{" ++ se ++ lit "}" ++ w3) Hps Sy) as [A B]. split; intros N.
    + destruct (A N) as (ps' & E2 & R2). change (def_params k line Y) with (def_params k line (lit "(" ++ sp ++ lit ")" ++ w2 ++ lit "{" ++ se ++ lit "}" ++ w3)).
      rewrite E2. cbn [pbind]. destruct (read_body k line K e se w2 w3 He W2 W3 Sb) as (e' & E3 & R3). rewrite E3. cbn [pbind].
      do 4 eexists. split; [reflexivity|]. auto.
    + change (def_params k line Y) with (def_params k line (lit "(" ++ sp ++ lit ")" ++ w2 ++ lit "{" ++ se ++ lit "}" ++ w3)). now rewrite (B N).
  - set (Z := lit ")" ++ w2 ++ lit "{" ++ se ++ lit "}" ++ w3). set (Y := lit "(" ++ sp ++ Z). set (line := w0 ++ lit "def " ++ tg_str n ++ w1 ++ tg_str ty ++ w1' ++ Y).
    assert (Sy : suf Y line) by (exists (w0 ++ lit "def " ++ tg_str n ++ w1 ++ tg_str ty ++ w1'); unfold line; now rewrite <- !app_assoc).
    assert (Sb : suf (w2 ++ lit "{" ++ se ++ lit "}" ++ w3) line).
    { refine (suf_trans _ _ _ _ Sy). exists (lit "(" ++ sp ++ lit ")"). unfold Y, Z. now rewrite <- !app_assoc. }
    assert (St : suf (tg_str ty ++ w1' ++ Y) line) by (exists (w0 ++ lit "def " ++ tg_str n ++ w1); unfold line; now rewrite <- !app_assoc).
    assert (Sk : skip (tg_str ty ++ w1' ++ Y) = tg_str ty ++ w1' ++ Y).
    { destruct Nt as [(c & s' & E & A) _]. rewrite E. cbn [app]. apply skip_cons. apply (break_ms k K). apply id_break; auto. now apply alpha_id. }
    assert (D : exists n', def_op k line line = POk (tg_str ty ++ w1' ++ Y) n' /\ er_tag n' = er_tag n).
    { destruct (read_def_op k line K n w0 (w1 ++ tg_str ty ++ w1' ++ Y) Nn W0) as (n' & E & Er); [apply soft_op_stop; [auto|now apply gap_soft]|apply suf_refl|].
      rewrite (skip_spaces w1) in E by apply W1. rewrite Sk in E. exists n'. split; [exact E|exact Er]. }
    destruct D as (n' & E1 & R1). unfold definition_impl, def_impl. rewrite E1. cbn [pbind].
    destruct (read_name k line (tg_str ty) (w1' ++ Y) St Nt) as (ty' & Et & Tt); [apply spaces_stop; auto; apply paren_stop; auto|].
    assert (T : ws (fun i => popt i (op_ident k line i)) (tg_str ty ++ w1' ++ Y) = POk Y (Some ty')).
    { unfold ws. rewrite Sk, Et. cbn [popt pbind]. rewrite (skip_spaces w1') by auto. reflexivity. }
    rewrite T. cbn [pbind]. destruct (read_def_params k line K ps sp (w2 ++ lit "{" ++ se ++ lit "}" ++ w3) Hps Sy) as [A B]. split; intros N.
    + destruct (A N) as (ps' & E2 & R2). change (def_params k line Y) with (def_params k line (lit "(" ++ sp ++ lit ")" ++ w2 ++ lit "{" ++ se ++ lit "}" ++ w3)).
      rewrite E2. cbn [pbind]. destruct (read_body k line K e se w2 w3 He W2 W3 Sb) as (e' & E3 & R3). rewrite E3. cbn [pbind].
      do 4 eexists. split; [reflexivity|]. cbn. rewrite (er_text ty ty' Tt). auto.
    + change (def_params k line Y) with (def_params k line (lit "(" ++ sp ++ lit ")" ++ w2 ++ lit "{" ++ se ++ lit "}" ++ w3)). now rewrite (B N).
Qed.
