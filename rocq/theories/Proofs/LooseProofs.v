(** All the text of what is parsed is taken up by the tree. *)
From Coq Require Import String List ZArith NArith Bool Arith Lia.
From Verif Require Import Model.Base Model.Utf Model.Ast Model.Parse Model.File Model.ParseTy Spec.ParseSpec Spec.ParseTySpec Spec.LooseSpec
  Proofs.ParseSpanProofs Proofs.ParseWriteProofs Proofs.FileMainProofs Proofs.ParseTySound.
Import ListNotations.

Section Loose.
  Variable k : lang.
  Hypothesis K : sane k.
  Variable line : str.

  Lemma suf_r : forall p j, suf (p ++ j) line -> suf j line.
  Proof. intros p j S. eapply suf_trans; [|exact S]. now exists p. Qed.
  Lemma made : forall i t j, suf i line -> i = t ++ j -> tg_str (create_tag line i t) = t.
  Proof. intros i t j S E. apply (text line i j); auto. now apply create_covers. Qed.

  (** ** Types, ops, words *)
  Lemma ty_sound : forall i j o, suf i line -> opt_ty k line i = POk j o -> exists s, w_ty k o s /\ i = s ++ j.
  Proof.
    intros i j o S H. unfold opt_ty, popt in H. destruct (let* (i, u) := pchar 58 i in cut (op_ident k line i)) as [j1 t| | |] eqn:E; try discriminate; injection H as <- <-.
    - apply bind_ok in E. destruct E as (i1 & u & E1 & E2). apply pchar_ok in E1. apply cut_ok in E2. subst i.
      destruct (ident_sound k line K i1 j1 t (suf_r [58%N] _ S) E2) as (N & E & _). exists (58%N :: tg_str t). split; [split; auto|]. cbn. now rewrite <- E.
    - exists []. split; reflexivity.
  Qed.
  Lemma sep_text : forall f i acc j l, suf i line -> sep_list k line f i acc = (j, l) ->
    exists more, l = acc ++ more /\ (forall t, In t more -> names k (tg_str t)) /\ i = concat (map (fun t => lit "/" ++ tg_str t) more) ++ j.
  Proof.
    induction f as [|f IH]; intros i acc j l S H; cbn [sep_list] in H; [injection H as <- <-; exists []; rewrite app_nil_r; split; [|split]; [reflexivity|intros t []|reflexivity]|].
    destruct (let* (j, u) := ptag (lit "/") i in tmp_op k line j) as [j1 t| | |] eqn:E; try (injection H as <- <-; exists []; rewrite app_nil_r; split; [|split]; [reflexivity|intros ? []|reflexivity]).
    apply bind_ok in E. destruct E as (i1 & u & E1 & E2). apply ptag_ok in E1; [|discriminate]. subst i. pose proof (suf_r _ _ S) as S1.
    destruct (tmp_op_sound k line _ _ _ S1 E2) as (E & N). rewrite E in S1. destruct (IH _ _ _ _ (suf_r _ _ S1) H) as (more & -> & F & Q).
    exists (t :: more). split; [now rewrite <- app_assoc|]. split; [intros x [<-|X]; auto|]. cbn [map concat]. rewrite <- !app_assoc, <- Q. now rewrite <- E.
  Qed.
  Lemma path_text : forall more a b, names k (tg_str a) -> names k (tg_str b) -> (forall t, In t more -> names k (tg_str t)) ->
    w_path k (a :: b :: more) (tg_str a ++ concat (map (fun t => lit "/" ++ tg_str t) (b :: more))).
  Proof.
    induction more as [|c more IH]; intros a b A B F.
    - cbn [map concat]. rewrite app_nil_r. now constructor.
    - cbn [map concat]. rewrite <- app_assoc. apply w_path_more; [exact A|]. apply IH; [exact B|apply F; now left|intros t T; apply F; now right].
  Qed.
  Lemma op_text : forall i j o, suf i line -> op k line i = POk j o -> exists s, w_op k o s /\ i = s ++ j.
  Proof.
    intros i j o S H. unfold op in H. destruct (spec_op i) as [j0 p| | |] eqn:Es.
    - injection H as -> <-. apply alt_inv in Es as [Hp E]. exists p. split; [|exact E]. cbn [w_op]. rewrite (made i p j S E). split; [reflexivity|]. left. now apply spec_symbols.
    - unfold path in H. destruct (strip (lit "/") i) as [i0|] eqn:Er.
      { exfalso. apply strip_app in Er. subst i. revert Es. apply (alt_hit _ (lit "/") _ i0); [cbn; tauto|reflexivity]. }
      apply bind_ok in H. destruct H as (i1 & p & H & X). injection X as <- <-. apply bind_ok in H. destruct H as (j1 & t1 & Et & H).
      destruct (tmp_op_sound k line _ _ _ S Et) as [E1 N1]. subst i.
      destruct (sep_list k line (length j1) j1 [t1]) as [j2 cs] eqn:El. destruct (sep_text _ _ _ _ _ (suf_r _ _ S) El) as (more & -> & F & Q).
      destruct (starts 47 j2); [discriminate|]. injection H as <- <-. cbn [fst snd app]. destruct more as [|m more].
      + exists (tg_str t1). split; [split; auto|]. now rewrite Q at 1.
      + exists (tg_str t1 ++ concat (map (fun t => lit "/" ++ tg_str t) (m :: more))). split; [|rewrite <- app_assoc; now rewrite <- Q].
        cbn [w_op]. split; [reflexivity|]. split; [reflexivity|]. apply path_text; [exact N1|apply F; now left|intros t T; apply F; now right].
    - exfalso. now apply (proj1 (alt_never specials i)).
    - exfalso. now apply (proj2 (alt_never specials i)).
  Qed.
  Lemma token_text : forall i j t, token k i = POk j t -> word k t /\ i = t ++ j.
  Proof.
    intros i j t H. unfold token, span1 in H. destruct (span _ i) as [a b] eqn:E. destruct (span_max _ _ _ _ E) as (M & _). apply span_app in E.
    destruct a as [|c a]; [discriminate|]. injection H as <- <-. split; [|exact E]. split; [discriminate|]. intros x X. specialize (M x X). unfold breakon in M.
    rewrite negb_true_iff, !orb_false_iff, !N.eqb_neq in M. cbn. intuition congruence.
  Qed.
  Lemma quoted_text : forall q i j t, In q (lit """'") -> quoted q i = POk j t -> i = q :: t ++ q :: j /\ ~ In q t.
  Proof.
    intros q i j t Q H. unfold quoted in H. apply bind_ok in H. destruct H as (i1 & u & E1 & H). apply pchar_ok in E1. destruct (span _ i1) as [a b] eqn:E.
    destruct (span_max _ _ _ _ E) as (M & _). apply span_app in E. apply bind_ok in H. destruct H as (i2 & u2 & E2 & H). apply pchar_ok in E2. injection H as <- <-. subst. split; [reflexivity|].
    intros I. specialize (M q I). rewrite N.eqb_refl in M. discriminate.
  Qed.
  Lemma word_sound : forall i j t, suf i line -> ident k line i = POk j t -> exists s, l_word k t s /\ i = s ++ j.
  Proof.
    intros i j t S H. unfold ident in H. destruct (starts 58 i); [discriminate|].
    assert (Q : forall q, In q (lit """'") -> (let* (j, t) := quoted q i in POk j (create_tag line (tl i) t)) = POk j t -> exists s, l_word k t s /\ i = s ++ j).
    { intros q I X. apply bind_ok in X. destruct X as (i1 & x & E & X). injection X as <- <-. apply quoted_text in E; [|exact I]. destruct E as (-> & N). cbn [tl].
      exists (q :: x ++ [q]). split; [|cbn; now rewrite <- app_assoc].
      right. exists q. rewrite (made (x ++ q :: i1) x (q :: i1) (suf_r [q] _ S) eq_refl). auto. }
    destruct (starts 34 i); [apply (Q 34%N); [now left|exact H]|]. destruct (starts 39 i); [apply (Q 39%N); [right; now left|exact H]|].
    apply bind_ok in H. destruct H as (i1 & x & E & X). injection X as <- <-. apply token_text in E. destruct E as (W & E). exists x. split; [|exact E]. left.
    rewrite (made i x i1 S E). auto.
  Qed.
  Lemma rhs_sound : forall i j t, suf i line -> rhs_ident k line i = POk j t -> exists s, (name k (tg_str t) /\ s = tg_str t \/ in_quotes (tg_str t) s) /\ i = s ++ j.
  Proof.
    intros i j t S H. unfold rhs_ident in H. destruct (starts 39 i || starts 34 i) eqn:Q.
    - unfold ident in H. destruct (starts 58 i); [discriminate|].
      assert (X : exists q, In q (lit """'") /\ (let* (j, t) := quoted q i in POk j (create_tag line (tl i) t)) = POk j t).
      { destruct (starts 34 i); [exists 34%N; split; [now left|exact H]|]. destruct (starts 39 i); [exists 39%N; split; [right; now left|exact H]|discriminate]. }
      destruct X as (q & I & X). apply bind_ok in X. destruct X as (i1 & x & E & X). injection X as <- <-. apply quoted_text in E; [|exact I]. destruct E as (-> & N). cbn [tl].
      exists (q :: x ++ [q]). split; [|cbn; now rewrite <- app_assoc]. right. exists q. rewrite (made (x ++ q :: i1) x (q :: i1) (suf_r [q] _ S) eq_refl). auto.
    - destruct (ident_sound k line K i j t S H) as (N & E & _). exists (tg_str t). auto.
  Qed.
  Lemma infix_sound : forall f i a j b, suf i line -> infix k line f i a = POk j b -> exists s, i = s ++ j /\ forall s0, l_arg k a s0 -> l_arg k b (s0 ++ s).
  Proof.
    induction f as [|f IH]; intros i a j b S H; cbn [infix] in H; (destruct (starts 46 i); [|injection H as <- <-; exists []; split; [reflexivity|intros s0 X; now rewrite app_nil_r]]); [discriminate|].
    apply bind_ok in H. destruct H as (i1 & d & E1 & H). pose proof E1 as E0. apply ptag_ok in E1; [|discriminate]. assert (d = lit ".") as -> by (unfold ptag in E0; destruct (strip (lit ".") i); [now injection E0|discriminate]).
    assert (S1 : suf i1 line) by (rewrite E1 in S; exact (suf_r _ _ S)).
    apply bind_ok in H. destruct H as (i2 & r & E2 & H). apply cut_ok in E2. destruct (rhs_sound _ _ _ S1 E2) as (sr & R & Q2). assert (S2 : suf i2 line) by (rewrite Q2 in S1; exact (suf_r _ _ S1)).
    apply bind_ok in H. destruct H as (i3 & o & E3 & H). destruct (ty_sound _ _ _ S2 E3) as (so & O & Q3). assert (S3 : suf i3 line) by (rewrite Q3 in S2; exact (suf_r _ _ S2)).
    destruct (IH _ _ _ _ S3 H) as (s & Q & L). exists (lit "." ++ sr ++ so ++ s). split; [rewrite E1, Q2, Q3, Q; now rewrite <- !app_assoc|]. intros s0 A.
    replace (s0 ++ lit "." ++ sr ++ so ++ s) with ((s0 ++ lit "." ++ sr ++ so) ++ s) by (now rewrite <- !app_assoc). apply L. apply l_dot; auto. exact (made i (lit ".") i1 S E1).
  Qed.

  (** ** Expressions *)
  Definition reads {A} (L : A -> str -> Prop) (p : str -> pres A) : Prop := forall i j a, suf i line -> p i = POk j a -> exists s, L a s /\ i = s ++ j.
  Lemma reads_ws : forall A (L : A -> str -> Prop) p i j a, reads L p -> suf i line -> ws p i = POk j a ->
    exists w s w', spaces w /\ L a s /\ spaces w' /\ i = w ++ s ++ w' ++ j /\ suf j line.
  Proof.
    intros A L p i j a R S H. destruct (ws_ok _ _ _ _ _ H) as (w & j0 & w' & Sw & Ei & Ep & Sw' & Ej & _). pose proof (suf_trans _ _ _ (suf_skip i) S) as S1.
    destruct (R _ _ _ S1 Ep) as (s & Ls & E). exists w, s, w'. split; [exact Sw|]. split; [exact Ls|]. split; [exact Sw'|]. split; [now rewrite <- Ej, <- E|].
    rewrite E, Ej in S1. exact (suf_r _ _ (suf_r _ _ S1)).
  Qed.
  Definition body (e : expr) (s : str) : Prop := ex_out e = None /\ l_blocks k (ex_blocks e) s.
  Definition all (f : nat) : Prop :=
    reads body (p_expr k line f) /\
    (forall i bs j l, suf i line -> p_pipes k line f i bs = POk j l -> exists l' s, l = bs ++ l' /\ i = s ++ j /\ forall m r, l_rest k m r -> l_rest k (l' ++ m) (s ++ r)) /\
    reads (l_block k) (p_block k line f) /\
    (forall i ts j l, suf i line -> p_terms k line f i ts = POk j l -> exists l' s, l = ts ++ l' /\ i = s ++ j /\ l_terms k l' s) /\
    reads (l_term k) (p_term k line f) /\ reads (l_arg k) (p_arg k line f).
  Lemma parse_reads : forall f, all f.
  Proof.
    induction f as [|f (E & Pi & B & Ts & T & Ar)]; [unfold all, reads; repeat split; intros; discriminate|].
    unfold all. split; [|split; [|split; [|split; [|split]]]].
    - intros i j e S H. rewrite p_expr_S in H. cbv zeta in H. apply bind_ok in H. destruct H as (i1 & b & E1 & H). destruct (reads_ws _ _ _ _ _ _ B S E1) as (w & s & w' & Sw & Lb & Sw' & Q & S1).
      apply bind_ok in H. destruct H as (i2 & bs & E2 & H). destruct (Pi _ _ _ _ S1 E2) as (l' & s2 & -> & Q2 & L2). assert (S2 : suf i2 line) by (rewrite Q2 in S1; exact (suf_r _ _ S1)).
      destruct (ws (p_block k line f) i2) as [j3 b3| | |] eqn:E3; try discriminate; injection H as <- <-; unfold body; cbn [ex_blocks ex_out app].
      + destruct (reads_ws _ _ _ _ _ _ B S2 E3) as (w3 & s3 & w3' & Sw3 & Lb3 & Sw3' & Q3 & _). exists (w ++ s ++ w' ++ s2 ++ w3 ++ s3 ++ w3'). split; [|rewrite Q, Q2, Q3; now rewrite <- !app_assoc].
        split; [reflexivity|]. constructor; auto. apply L2. now constructor.
      + exists (w ++ s ++ w' ++ s2). split; [|rewrite Q, Q2; now rewrite <- !app_assoc]. split; [reflexivity|]. constructor; auto. specialize (L2 [] [] (l_rest_nil k)). now rewrite !app_nil_r in L2.
      + exists (w ++ s ++ w' ++ s2). split; [|rewrite Q, Q2; now rewrite <- !app_assoc]. split; [reflexivity|]. constructor; auto. specialize (L2 [] [] (l_rest_nil k)). now rewrite !app_nil_r in L2.
    - intros i bs j l S H. rewrite p_pipes_S in H. destruct (starts 124 i) eqn:St.
      + destruct i as [|c i]; [discriminate|]. cbn in St. apply N.eqb_eq in St. subst c. cbn [tl] in H. apply bind_ok in H. destruct H as (i1 & b & E1 & H).
        destruct (reads_ws _ _ _ _ _ _ B (suf_r [124%N] _ S) E1) as (w & s & w' & Sw & Lb & Sw' & Q & S1). destruct (Pi _ _ _ _ S1 H) as (l' & s2 & -> & Q2 & L2).
        exists (b :: l'), (lit "|" ++ w ++ s ++ w' ++ s2). split; [now rewrite <- app_assoc|]. split; [rewrite Q, Q2; now rewrite <- !app_assoc|]. intros m r R. cbn [app].
        replace ((lit "|" ++ w ++ s ++ w' ++ s2) ++ r) with (lit "|" ++ w ++ s ++ w' ++ s2 ++ r) by (now rewrite <- !app_assoc). constructor; auto.
      + injection H as <- <-. exists [], []. split; [now rewrite app_nil_r|]. split; [reflexivity|]. auto.
    - intros i j b S H. rewrite p_block_S in H. apply bind_ok in H. destruct H as (i1 & it & E1 & H). destruct (ty_sound _ _ _ S E1) as (si & W1 & Q1). assert (S1 : suf i1 line) by (rewrite Q1 in S; exact (suf_r _ _ S)).
      destruct (skip_split i1) as (w & Sw & Qw). assert (S1' : suf (skip i1) line) by exact (suf_trans _ _ _ (suf_skip i1) S1).
      apply bind_ok in H. destruct H as (i2 & o & E2 & H). destruct (op_text _ _ _ S1' E2) as (so & W2 & Q2). assert (S2 : suf i2 line) by (rewrite Q2 in S1'; exact (suf_r _ _ S1')).
      apply bind_ok in H. destruct H as (i3 & ot & E3 & H). destruct (ty_sound _ _ _ S2 E3) as (sout & W3 & Q3). assert (S3 : suf i3 line) by (rewrite Q3 in S2; exact (suf_r _ _ S2)).
      apply bind_ok in H. destruct H as (i4 & ts & E4 & H). injection H as <- <-. destruct (Ts _ _ _ _ S3 E4) as (l' & sts & -> & Q4 & L). cbn [app].
      exists (si ++ w ++ so ++ sout ++ sts). split; [now constructor|]. rewrite Q1, Qw, Q2, Q3, Q4. now rewrite <- !app_assoc.
    - intros i ts j l S H. rewrite p_terms_S in H. destruct (ws (p_term k line f) i) as [i1 t| | |] eqn:E1; try discriminate.
      + destruct (Nat.eqb _ _); [discriminate|]. destruct (reads_ws _ _ _ _ _ _ T S E1) as (w & s & w' & Sw & Lt & Sw' & Q & S1). destruct (Ts _ _ _ _ S1 H) as (l' & s2 & -> & Q2 & L2).
        exists (t :: l'), (w ++ s ++ w' ++ s2). split; [now rewrite <- app_assoc|]. split; [rewrite Q, Q2; now rewrite <- !app_assoc|]. now constructor.
      + injection H as <- <-. exists [], []. split; [now rewrite app_nil_r|]. split; [reflexivity|constructor].
    - intros i j t S H. rewrite p_term_S in H. destruct (strip (lit "--") i) as [x|] eqn:Es.
      + apply bind_ok in H. destruct H as (i1 & g & E1 & H). injection H as <- <-. unfold flag in E1. apply bind_ok in E1. destruct E1 as (i2 & u & E2 & E1). apply ptag_ok in E2; [|discriminate]. subst i.
        destruct (word_sound _ _ _ (suf_r _ _ S) E1) as (s & W & Q). exists (lit "--" ++ s). split; [now constructor|]. rewrite Q. now rewrite <- app_assoc.
      + apply bind_ok in H. destruct H as (i1 & a & E1 & H). apply bind_ok in H. destruct H as (i2 & a2 & E2 & H). injection H as <- <-. destruct (Ar _ _ _ S E1) as (s & La & Q).
        assert (S1 : suf i1 line) by (rewrite Q in S; exact (suf_r _ _ S)). destruct (infix_sound _ _ _ _ _ S1 E2) as (s2 & Q2 & L2). exists (s ++ s2). split; [constructor; auto|]. rewrite Q, Q2. now rewrite <- app_assoc.
    - intros i j a S H. rewrite p_arg_S in H. destruct (starts 123 i).
      { destruct (empty_braces i); [discriminate|]. cbv zeta in H. apply bind_ok in H. destruct H as (i1 & e & E1 & H). apply cut_ok in E1. apply bind_ok in E1. destruct E1 as (i2 & u & E2 & E1). apply pchar_ok in E2. subst i.
        apply bind_ok in E1. destruct E1 as (i3 & e3 & E3 & E1). apply bind_ok in E1. destruct E1 as (i4 & u4 & E4 & E1). injection E1 as <- <-. apply pchar_ok in E4.
        destruct (reads_ws _ _ _ _ _ _ E (suf_r [123%N] _ S) E3) as (w & s & w' & Sw & (No & Le) & Sw' & Q & S3). subst i3. apply bind_ok in H. destruct H as (i5 & out & E5 & H). injection H as <- <-.
        destruct (ty_sound _ _ _ (suf_r [125%N] _ S3) E5) as (so & Wo & Qo). exists (lit "{" ++ w ++ s ++ w' ++ lit "}" ++ so). split; [now apply l_braces|]. rewrite Q, Qo. cbn. now rewrite <- !app_assoc. }
      destruct (starts 58 i); [discriminate|]. destruct (breakon_s k i); [discriminate|]. destruct (starts 36 i).
      { apply bind_ok in H. destruct H as (i1 & t & E1 & H). injection H as <- <-. unfold var in E1. apply bind_ok in E1. destruct E1 as (i2 & u & E2 & E1). apply pchar_ok in E2. subst i.
        destruct (ident_sound k line K _ _ _ (suf_r [36%N] _ S) E1) as (N & Q & _). exists (36%N :: tg_str t). split; [now constructor|]. cbn. now rewrite <- Q. }
      destruct (starts 35 i) eqn:St.
      { destruct i as [|c i]; [discriminate|]. cbn in St. apply N.eqb_eq in St. subst c. cbn [tl] in H. apply bind_ok in H. destruct H as (i1 & t & E1 & H). apply cut_ok in E1.
        destruct (ident_sound k line K _ _ _ (suf_r [35%N] _ S) E1) as (N & Q & _). destruct (byte_len (tg_str t)) as [|[|n]] eqn:Bl; try discriminate.
        destruct (tg_str t) as [|ch r] eqn:Et; [discriminate|]. injection H as <- <-.
        assert (r = []) as ->. { destruct r as [|d r]; [reflexivity|]. exfalso. cbn in Bl. pose proof (len_utf8_pos ch). pose proof (len_utf8_pos d). lia. }
        exists [35%N; ch]. split; [|cbn; now rewrite Q]. constructor. destruct N as ((c & s & X & A) & _). now injection X as <- _. }
      assert (NEXT : (if known_op k line i then
              let* (j, b) := ws (p_block k line f) i in POk j (AExpr (Expr (set_end line (create_tag line i i) (N.of_nat (offset line j))) [b] None))
            else let* (j, t) := ident k line i in POk j (AIdent t)) = POk j a -> exists s, l_arg k a s /\ i = s ++ j).
      { clear H. intros H. destruct (known_op k line i).
        - apply bind_ok in H. destruct H as (i1 & b & E1 & H). injection H as <- <-. destruct (reads_ws _ _ _ _ _ _ B S E1) as (w & s & w' & Sw & Lb & Sw' & Q & S1).
          exists (w ++ s ++ w'). split; [now apply l_bare|]. rewrite Q. now rewrite <- !app_assoc.
        - apply bind_ok in H. destruct H as (i1 & t & E1 & H). injection H as <- <-. destruct (word_sound _ _ _ S E1) as (s & W & Q). exists s. split; [now constructor|exact Q]. }
      destruct (num k line i) as [j1 nt| | |] eqn:En; auto. injection H as <- <-. unfold num in En. apply bind_ok in En. destruct En as (i1 & x & E1 & En). apply token_text in E1. destruct E1 as (W & Q).
      destruct (number k x) as [z|] eqn:Nz; [|discriminate]. injection En as <- <-. cbn [fst snd]. pose proof (made i x i1 S Q) as M. exists x. split; [|exact Q]. rewrite <- M at 2. constructor; now rewrite M.
  Qed.
  Lemma trailing_ok : forall A (p : str -> pres A) i j a, no_trailing k p i = POk j a -> j = [] /\ exists r, p i = POk r a /\ whites k r.
  Proof.
    intros A p i j a H. unfold no_trailing in H. apply bind_ok in H. destruct H as (r & b & E & H). destruct (blank k r) eqn:Bl; [|discriminate]. injection H as <- <-. split; [reflexivity|].
    exists r. split; [exact E|]. exact (proj1 (forallb_forall _ _) Bl).
  Qed.

  (** ** Definitions *)
  Lemma param_sound : forall i j p, suf i line -> def_param k line i = POk j p -> (exists s, w_param k p s /\ i = s ++ j) /\ op_ident k line j = PErr.
  Proof.
    intros i j p S H. unfold def_param in H. apply bind_ok in H. destruct H as (i1 & n & E1 & H). destruct (ident_sound k line K _ _ _ S E1) as (N & Q & M). subst i. destruct (starts 58 i1) eqn:St.
    - destruct i1 as [|c i1]; [discriminate|]. cbn in St. apply N.eqb_eq in St. subst c. cbn [tl] in H. apply bind_ok in H. destruct H as (i2 & t & E2 & H). injection H as <- <-.
      destruct (ident_sound k line K _ _ _ (suf_r [58%N] _ (suf_r _ _ S)) E2) as (Nt & Qt & Mt). split; [|exact Mt]. exists (tg_str n ++ 58%N :: tg_str t). split; [|rewrite <- app_assoc; cbn; now rewrite <- Qt].
      split; [exact N|]. exists (58%N :: tg_str t). split; [split; auto|reflexivity].
    - injection H as <- <-. split; [|exact M]. exists (tg_str n). split; [|reflexivity]. split; [exact N|]. exists []. split; [reflexivity|now rewrite app_nil_r].
  Qed.
  Lemma params_sound : forall f i acc j l, suf i line -> many_params k line f i acc = POk j l ->
    exists l', l = acc ++ l' /\ ((l' = [] /\ j = i) \/ (l' <> [] /\ exists s, w_params k l' s /\ i = s ++ j /\ exists j' p, def_param k line (skip i) = POk j' p)).
  Proof.
    induction f as [|f IH]; intros i acc j l S H; [discriminate|]. cbn [many_params] in H. destruct (ws (def_param k line) i) as [i1 p| | |] eqn:E1; try discriminate.
    2: { injection H as <- <-. exists []. split; [now rewrite app_nil_r|]. left. auto. }
    destruct (Nat.eqb _ _); [discriminate|]. destruct (ws_ok _ _ _ _ _ E1) as (w & j0 & w' & Sw & Ei & Ep & Sw' & Ej & Es). pose proof (suf_trans _ _ _ (suf_skip i) S) as S0.
    destruct (param_sound _ _ _ S0 Ep) as ((s & W & Q) & M). assert (S1 : suf i1 line) by (rewrite Q, Ej in S0; exact (suf_r _ _ (suf_r _ _ S0))).
    destruct (IH _ _ _ _ S1 H) as (l' & -> & C). exists (p :: l'). split; [now rewrite <- app_assoc|]. right. split; [discriminate|]. destruct C as [(-> & ->)|(NE & s' & W' & Q' & j' & p' & X)].
    - exists (w ++ s ++ w'). split; [now constructor|]. split; [rewrite Ei, Q, Ej; now rewrite <- !app_assoc|eauto].
    - exists (w ++ s ++ w' ++ s'). split; [|split; [rewrite Ei, Q, Ej, Q'; now rewrite <- !app_assoc|eauto]]. constructor; auto. split; [|exact Sw']. intros ->. cbn in Ej. subst j0.
      assert (skip i1 = i1) as Y by (rewrite Es at 2; now rewrite <- Es). rewrite Y in X. unfold def_param in X. rewrite M in X. discriminate.
  Qed.
End Loose.

Theorem uses_all : forall k r e s, sane k -> expression k s = POk r e -> l_expr k e s.
Proof.
  intros k r e s K H. unfold expression in H. apply trailing_ok in H. destruct H as (_ & w & H & W). unfold expr_p in H.
  destruct (proj1 (parse_reads k K s (enough s)) _ _ _ (ex_intro _ [] eq_refl) H) as (s' & (O & L) & Q). split; [exact O|]. exists s', w. auto.
Qed.
Theorem def_uses_all : forall k r n ity ps e s, sane k -> definition_impl k s = POk r (n, ity, ps, e) -> l_def k n ity ps e s.
Proof.
  intros k r n ity ps e s K H. unfold definition_impl, def_impl in H. assert (S : suf s s) by now exists [].
  apply bind_ok in H. destruct H as (i1 & n' & E1 & H). apply bind_ok in H. destruct H as (i2 & ty & E2 & H). apply bind_ok in H. destruct H as (i3 & ps' & E3 & H). apply bind_ok in H. destruct H as (i4 & e' & E4 & H).
  injection H as <- <- <- <- <-. unfold def_op in E1. apply bind_ok in E1. destruct E1 as (j1 & o & E1 & X).
  assert (R1 : reads s (fun o s' => exists so, w_op k o so /\ s' = lit "def " ++ so) (fun i => let* (i, u) := ptag (lit "def ") i in op k s i)).
  { intros i j a Si Ha. apply bind_ok in Ha. destruct Ha as (ia & u & Ea & Ha). apply ptag_ok in Ea; [|discriminate]. subst i.
    destruct (op_text k s _ _ _ (suf_r s _ _ Si) Ha) as (so & Wo & Qo). exists (lit "def " ++ so). split; [eauto|]. rewrite Qo. now rewrite <- app_assoc. }
  destruct (reads_ws s _ _ _ _ _ _ R1 S E1) as (w0 & x & w1 & Sw0 & (so & Wo & ->) & Sw1 & Q1 & S1).
  assert (On : o = OpSingle n' /\ i1 = j1 /\ so = tg_str n' /\ w_op k (OpSingle n') (tg_str n')).
  { destruct o as [t|cs c rt]; cbn [is_op] in X; [injection X as <- <-; split; [reflexivity|]; split; [reflexivity|]; destruct Wo as (-> & Wo); cbn; auto|].
    destruct Wo as (-> & -> & Wp). destruct Wp as [a b Na Nb|a cs sa Na Wp]; [cbn in X; discriminate|]. destruct Wp; cbn in X; discriminate. }
  destruct On as (-> & -> & -> & Wn).
  assert (R2 : reads s (fun t st => match t with Some t => name k (tg_str t) /\ st = tg_str t | None => st = [] end) (fun i => popt i (op_ident k s i))).
  { intros i j a Si Ha. unfold popt in Ha. destruct (op_ident k s i) as [ia t| | |] eqn:Ea; try discriminate; injection Ha as <- <-.
    - destruct (ident_sound k s K _ _ _ Si Ea) as (Nt & Qt & _). exists (tg_str t). auto.
    - exists []. auto. }
  destruct (reads_ws s _ _ _ _ _ _ R2 S1 E2) as (w1' & st & w2 & Sw1' & Wt & Sw2 & Q2 & S2).
  unfold def_params in E3. apply bind_ok in E3. destruct E3 as (k1 & u1 & F1 & E3). apply pchar_ok in F1. apply bind_ok in E3. destruct E3 as (k2 & l & F2 & E3). apply bind_ok in E3. destruct E3 as (k3 & u3 & F3 & E3). apply pchar_ok in F3.
  destruct (repeats [] l); [discriminate|]. injection E3 as <- <-. subst i2 k2.
  assert (P : exists sp, w_params k l sp /\ k1 = sp ++ 41%N :: k3).
  { destruct (params_sound k K s _ _ _ _ _ (suf_r s [40%N] _ S2) F2) as (l' & -> & [(-> & C)|(_ & sp & Wp & Qp & _)]); [exists []; split; [constructor|now rewrite C]|exists sp; auto]. }
  destruct P as (sp & Wp & Qp). subst k1. assert (S3 : suf k3 s) by exact (suf_r s [41%N] _ (suf_r s sp _ (suf_r s [40%N] _ S2))).
  apply trailing_ok in E4. destruct E4 as (_ & w6 & E4 & W6).
  assert (R0 : reads s (body k) (expr_p k s)) by (intros x y z Sx Hx; exact (proj1 (parse_reads k K s (enough x)) x y z Sx Hx)).
  assert (R3 : reads s (fun e sx => exists w4 se w5, spaces w4 /\ body k e se /\ spaces w5 /\ sx = lit "{" ++ w4 ++ se ++ w5 ++ lit "}")
    (fun i => let* (i, u) := pchar 123 i in let* (i, e) := ws (expr_p k s) i in let* (i, u) := pchar 125 i in POk i e)).
  { intros i j a Si Ha. apply bind_ok in Ha. destruct Ha as (ia & u & Ea & Ha). apply pchar_ok in Ea. subst i.
    apply bind_ok in Ha. destruct Ha as (ib & eb & Eb & Ha). apply bind_ok in Ha. destruct Ha as (ic & uc & Ec & Ha). injection Ha as <- <-. apply pchar_ok in Ec.
    destruct (reads_ws s _ _ _ _ _ _ R0 (suf_r s [123%N] _ Si) Eb) as (w4 & se & w5 & S4 & Be & S5 & Q & _).
    exists (lit "{" ++ w4 ++ se ++ w5 ++ lit "}"). split; [exists w4, se, w5; auto|]. rewrite Q, Ec. cbn. now rewrite <- !app_assoc. }
  destruct (reads_ws s _ _ _ _ _ _ R3 S3 E4) as (w3 & x & w5' & Sw3 & (w4 & se & w5 & Sw4 & (Oe & Be) & Sw5 & ->) & Sw5' & Q3 & _).
  assert (Z : s = w0 ++ lit "def " ++ tg_str n' ++ (w1 ++ w1') ++ st ++ w2 ++ lit "(" ++ sp ++ lit ")" ++ w3 ++ lit "{" ++ w4 ++ se ++ w5 ++ lit "}" ++ (w5' ++ w6)).
  { rewrite Q1 at 1. rewrite Q2, Q3. cbn. rewrite <- !app_assoc. cbn. now rewrite ?app_assoc_reverse. }
  rewrite Z. constructor; auto; [now apply spaces_app|]. intros c C. apply in_app_or in C. destruct C as [C|C]; [|now apply W6]. apply (sane_white K). now apply Sw5'.
Qed.
