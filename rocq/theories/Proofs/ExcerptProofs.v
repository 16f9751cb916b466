(** What an error shows of the source. *)
From Coq Require Import String List ZArith NArith Bool Arith Lia.
From Verif Require Import Model.Base Model.Utf Model.Lsp Model.Ast Model.Excerpt Spec.ExcerptSpec Spec.ParseSpec Proofs.UtfLemmas Proofs.LspProofs Proofs.ParseSpanProofs.
Import ListNotations.

Lemma columns_app : forall a b, columns (a ++ b) = columns a + columns b.
Proof.
  induction a as [|c a IH]; intros b; [reflexivity|]. change (tabsize c + columns (a ++ b) = tabsize c + columns a + columns b). rewrite IH. lia.
Qed.
Lemma columns_wide : forall s, columns s = wide s.
Proof.
  unfold wide. induction s as [|c s IH]; [reflexivity|]. cbn [columns fold_right length count_occ]. fold (columns s). rewrite IH. unfold tabsize.
  destruct (N.eqb_spec c 9) as [->|N]; [destruct (N.eq_dec 9 9); [lia|congruence]|]. destruct (N.eq_dec c 9); [congruence|lia].
Qed.
Lemma wide_pos : forall m, m <> [] -> 1 <= wide m.
Proof. intros [|c m] H; [congruence|]. unfold wide. cbn [length]. lia. Qed.

Lemma strip_cr_text : forall t, (forall x, t <> x ++ [13%N]) -> strip_cr t = t.
Proof.
  intros t H. unfold strip_cr. destruct (rev t) as [|c r] eqn:E; [reflexivity|]. destruct (N.eqb_spec c 13) as [->|]; [|reflexivity].
  exfalso. apply (H (rev r)). rewrite <- (rev_involutive t), E. reflexivity.
Qed.
Lemma strip_cr_cr : forall t, strip_cr (t ++ [13%N]) = t.
Proof. intros t. unfold strip_cr. rewrite rev_app_distr. cbn. apply rev_involutive. Qed.
Lemma strip_cr_pre : forall t, exists w, t = strip_cr t ++ w.
Proof.
  intros t. unfold strip_cr. destruct (rev t) as [|c r] eqn:E; [exists []; now rewrite app_nil_r|]. destruct (N.eqb c 13); [|exists []; now rewrite app_nil_r].
  exists [c]. rewrite <- (rev_involutive t), E. reflexivity.
Qed.

Section S.
  Variable white : N -> bool.
  Variable bc : bool.

  (** Lines with what ends them. *)
  Lemma lines_eol : forall off t e r, line_text t -> eol e ->
    lines_at bc off (split_lf (t ++ e ++ r)) = (off, t) :: lines_at bc (off + byte_len t + byte_len e) (split_lf r).
  Proof.
    intros off t e r [H1 H2] [-> | ->]; cbn [app].
    - rewrite lines_at_piece by auto. rewrite strip_cr_text by auto. reflexivity.
    - change (t ++ 13%N :: 10%N :: r) with (t ++ [13%N] ++ 10%N :: r). rewrite app_assoc, lines_at_piece.
      + rewrite strip_cr_cr, byte_len_app. f_equal. f_equal. cbn. lia.
      + intros I. apply in_app_iff in I. destruct I as [I|[I|[]]]; [auto|discriminate].
  Qed.
  Lemma lines_last : forall off t, line_text t -> t <> [] -> lines_at bc off (split_lf t) = [(off, t)].
  Proof.
    intros off t [H1 H2] N. rewrite split_lf_last by auto. cbn. destruct t; [congruence|]. destruct bc; [|reflexivity]. now rewrite strip_cr_text.
  Qed.
  Lemma first_lf : forall s, In 10%N s -> exists x y, s = x ++ 10%N :: y /\ ~ In 10%N x.
  Proof.
    induction s as [|c s IH]; [intros []|]. intros H. destruct (N.eq_dec c 10) as [->|N]; [exists [], s; split; [reflexivity|intros []]|].
    destruct H as [->|H]; [congruence|]. destruct (IH H) as (x & y & -> & K). exists (c :: x), y. split; [reflexivity|]. intros [->|I]; [congruence|auto].
  Qed.
  Lemma fresh_cases : forall a, fresh a -> a = [] \/ exists x y, a = x ++ 10%N :: y /\ ~ In 10%N x /\ fresh y.
  Proof.
    intros a [->|(a' & ->)]; [now left|]. right. destruct (first_lf (a' ++ [10%N])) as (x & y & E & N); [apply in_app_iff; right; now left|].
    exists x, y. split; [exact E|]. split; [exact N|]. destruct (rev y) as [|z w] eqn:R.
    - left. apply (f_equal (@rev _)) in R. now rewrite rev_involutive in R.
    - right. exists (rev w). assert (Y : y = rev w ++ [z]) by (rewrite <- (rev_involutive y), R; reflexivity).
      rewrite Y in *. f_equal. f_equal. assert (Q : (x ++ 10%N :: rev w) ++ [z] = a' ++ [10%N]) by (rewrite E, <- app_assoc; reflexivity).
      apply app_inj_tail in Q. tauto.
  Qed.
  Lemma len_ind : forall (P : str -> Prop), (forall a, (forall b, length b < length a -> P b) -> P a) -> forall a, P a.
  Proof. intros P H a. apply (well_founded_induction (Wf_nat.well_founded_ltof _ (@length N))). intros x IH. apply H. intros b L. apply IH. exact L. Qed.

  Lemma skip_front : forall code start stop a x off, fresh a -> off + byte_len a <= start ->
    mark_lines white code start stop (lines_at bc off (split_lf (a ++ x))) = mark_lines white code start stop (lines_at bc (off + byte_len a) (split_lf x)).
  Proof.
    intros code start stop a. induction a as [a IH] using len_ind. intros x off F L. destruct (fresh_cases a F) as [->|(y & z & -> & N & Fz)].
    - cbn. now rewrite Nat.add_0_r.
    - rewrite <- app_assoc. cbn [app]. rewrite lines_at_piece by auto. rewrite byte_len_app, byte_len_cons in *. change (len_utf8 10) with 1 in *.
      cbn [mark_lines mark_line]. destruct (strip_cr_pre y) as (w & Ew). assert (Lw : byte_len y = byte_len (strip_cr y) + byte_len w) by (rewrite Ew at 1; apply byte_len_app).
      replace (Nat.ltb (off + byte_len (strip_cr y)) start) with true by (symmetry; apply Nat.ltb_lt; lia). cbn [orb rbind].
      rewrite IH; auto; [|rewrite app_length; cbn; lia|lia]. replace (off + byte_len y + 1 + byte_len z) with (off + (byte_len y + (1 + byte_len z))) by lia.
      destruct (mark_lines _ _ _ _ _); reflexivity.
  Qed.
  Lemma offsets_ge : forall ls off, Forall (fun l => off <= fst l) (lines_at bc off ls).
  Proof.
    induction ls as [|l ls IH]; intros off; [constructor|]. destruct ls as [|m ls].
    - cbn. destruct l; constructor; [apply le_n|constructor].
    - rewrite lines_at_cons. constructor; [apply le_n|]. eapply Forall_impl; [|apply IH]. cbn. intros; lia.
  Qed.
  Lemma skip_back : forall code start stop ls, Forall (fun l => stop <= fst l) ls -> mark_lines white code start stop ls = Ok [].
  Proof.
    intros code start stop ls H. induction H as [|[o t] ls H _ IH]; [reflexivity|]. cbn [mark_lines mark_line fst] in *.
    replace (Nat.leb stop o) with true by (symmetry; now apply Nat.leb_le). rewrite orb_true_r. cbn [rbind]. now rewrite IH.
  Qed.
  Lemma slice_at : forall x m y o s, o = byte_len x -> s = byte_len x + byte_len m -> slice_bytes o s (x ++ m ++ y) = Ok m.
  Proof. intros x m y o s -> ->. apply slice_bytes_app. Qed.

  (** ** A span within a line *)
  Lemma last_piece : forall code start stop off t e b, line_text t -> follows e b -> stop <= off + byte_len t -> (t = [] -> e <> []) ->
    mark_lines white code start stop (lines_at bc off (split_lf (t ++ e ++ b))) =
    (let? x := mark_line white code start stop (off, t) in Ok match x with Some m => [m] | None => [] end).
  Proof.
    intros code start stop off t e b T F L N. destruct F as [E|[-> ->]].
    - rewrite lines_eol by auto. cbn [mark_lines]. destruct (mark_line white code start stop (off, t)) as [x| |]; cbn [rbind]; auto.
      rewrite skip_back; [cbn [rbind]; now destruct x|]. eapply Forall_impl; [|apply offsets_ge]. cbn. intros; lia.
    - rewrite !app_nil_r. rewrite lines_last by (try exact T; intros ->; now apply N). cbn [mark_lines]. destruct (mark_line white code start stop (off, t)) as [x| |]; cbn [rbind]; auto.
  Qed.
  Lemma single_lines : forall a p m r e b, fresh a -> line_text (p ++ m ++ r) -> follows e b -> m <> [] ->
    trace_code_lines white bc (a ++ p ++ m ++ r ++ e ++ b) (byte_len (a ++ p)) (byte_len (a ++ p) + byte_len m) = Ok [(p ++ m ++ r, wide p, wide (p ++ m))].
  Proof.
    intros a p m r e b Fa T F N. set (code := a ++ p ++ m ++ r ++ e ++ b). set (start := byte_len (a ++ p)). set (stop := start + byte_len m).
    unfold trace_code_lines, str_lines. subst code. rewrite skip_front; auto; [|subst start; rewrite byte_len_app; lia]. cbn [Nat.add].
    replace (p ++ m ++ r ++ e ++ b) with ((p ++ m ++ r) ++ e ++ b) at 2 by (now rewrite <- !app_assoc).
    assert (Lm : 1 <= byte_len m) by (destruct m as [|c m]; [congruence|]; rewrite byte_len_cons; pose proof (len_utf8_pos c); lia).
    assert (Es : start = byte_len a + byte_len p) by (subst start; apply byte_len_app).
    rewrite last_piece; auto; [|subst stop; rewrite !byte_len_app; lia|intros E; destruct p; [destruct m; [congruence|discriminate]|discriminate]].
    cbn [mark_line]. rewrite !byte_len_app. subst stop.
    replace (Nat.ltb _ start) with false by (symmetry; apply Nat.ltb_ge; lia). replace (Nat.leb (start + byte_len m) (byte_len a)) with false by (symmetry; apply Nat.leb_gt; lia).
    cbn [orb]. replace (Nat.leb (byte_len a) start) with true by (symmetry; apply Nat.leb_le; lia).
    rewrite (slice_at a p (m ++ r ++ e ++ b)) by auto. cbn [rbind].
    replace (Nat.leb (start + byte_len m) _) with true by (symmetry; apply Nat.leb_le; lia).
    rewrite (app_assoc p m), (slice_at a (p ++ m) (r ++ e ++ b)) by (auto; rewrite byte_len_app; lia). cbn [rbind]. rewrite !columns_wide. rewrite <- ?app_assoc. reflexivity.
  Qed.
  Lemma one_print : forall code start len t s e, 0 < len -> trace_code_lines white bc code start (start + len) = Ok [(t, s, e)] -> s < e ->
    print_trace white bc code start len = Ok (Excerpt s [t] (Some (N.min 10000 (N.of_nat s), N.of_nat e - N.min 10000 (N.of_nat s))%N)).
  Proof.
    intros code start len t s e L H Lt. unfold print_trace. replace (Nat.ltb 0 len) with true by (symmetry; now apply Nat.ltb_lt). rewrite H. cbn [rbind map fst snd].
    unfold least, greatest. cbn [fold_left fst snd]. rewrite N.max_0_l.
    replace (N.ltb (N.min 10000 (N.of_nat s)) (N.of_nat e)) with true by (symmetry; apply N.ltb_lt; lia). reflexivity.
  Qed.
  Lemma single_print : forall a p m r e b, fresh a -> line_text (p ++ m ++ r) -> follows e b -> m <> [] ->
    print_trace white bc (a ++ p ++ m ++ r ++ e ++ b) (byte_len (a ++ p)) (byte_len m) =
    Ok (Excerpt (wide p) [p ++ m ++ r] (Some (N.min 10000 (N.of_nat (wide p)), N.of_nat (wide (p ++ m)) - N.min 10000 (N.of_nat (wide p)))%N)).
  Proof.
    intros a p m r e b Fa T F N. apply one_print.
    - destruct m as [|c m]; [congruence|]. rewrite byte_len_cons. pose proof (len_utf8_pos c). lia.
    - now apply single_lines.
    - rewrite <- !columns_wide, columns_app, !columns_wide. assert (X := wide_pos m N). lia.
  Qed.

  (** ** A span over several lines *)
  Lemma inner_lines : forall code start stop ts off x rest, Forall (fun l => line_text (fst l) /\ eol (snd l)) ts -> start < off -> off + byte_len (lines_text ts) < stop ->
    mark_lines white code start stop (lines_at bc (off + byte_len (lines_text ts)) (split_lf x)) = Ok rest ->
    mark_lines white code start stop (lines_at bc off (split_lf (lines_text ts ++ x))) =
    Ok (map (fun l => (fst l, wide (leading white (fst l)), wide (trim_end white (fst l)))) ts ++ rest).
  Proof.
    intros code start stop ts. induction ts as [|[t e] ts IH]; intros off x rest F L1 L2 R.
    - cbn in *. now rewrite Nat.add_0_r in R.
    - apply Forall_cons_iff in F. destruct F as [[Ft Fe] F]. cbn [fst snd] in *. unfold lines_text in *. cbn [map concat fst snd] in *. fold (lines_text ts) in *.
      rewrite <- !app_assoc, lines_eol by auto. rewrite !byte_len_app in *.
      assert (Le : 1 <= byte_len e) by (destruct Fe as [-> | ->]; cbn; lia).
      cbn [mark_lines mark_line]. replace (Nat.ltb _ start) with false by (symmetry; apply Nat.ltb_ge; lia). replace (Nat.leb stop off) with false by (symmetry; apply Nat.leb_gt; lia).
      cbn [orb]. replace (Nat.leb off start) with false by (symmetry; apply Nat.leb_gt; lia). cbn [rbind].
      replace (Nat.leb stop (off + byte_len t)) with false by (symmetry; apply Nat.leb_gt; lia).
      replace (Nat.eqb (off + byte_len t) start) with false by (symmetry; apply Nat.eqb_neq; lia). cbn [rbind].
      rewrite (IH _ x rest); auto; [|lia|lia|rewrite <- R; f_equal; f_equal; lia]. cbn [rbind app]. now rewrite !columns_wide.
  Qed.
  Lemma multi_lines : forall a p m0 e0 ts mk r e b, fresh a -> line_text (p ++ m0) -> eol e0 -> Forall (fun l => line_text (fst l) /\ eol (snd l)) ts ->
    line_text (mk ++ r) -> mk <> [] -> follows e b ->
    let span := m0 ++ e0 ++ lines_text ts ++ mk in
    trace_code_lines white bc (a ++ p ++ span ++ r ++ e ++ b) (byte_len (a ++ p)) (byte_len (a ++ p) + byte_len span) =
    Ok ((p ++ m0, wide p, match m0 with [] => wide p + 1 | _ => wide (trim_end white (p ++ m0)) end) ::
        map (fun l => (fst l, wide (leading white (fst l)), wide (trim_end white (fst l)))) ts ++ [(mk ++ r, wide (leading white (mk ++ r)), wide mk)]).
  Proof.
    intros a p m0 e0 ts mk r e b Fa T0 E0 Ft Tk Nk F span. set (code := a ++ p ++ span ++ r ++ e ++ b). set (start := byte_len (a ++ p)). set (stop := start + byte_len span).
    unfold trace_code_lines, str_lines. assert (Es : start = byte_len a + byte_len p) by (subst start; apply byte_len_app).
    assert (Ec : code = a ++ (p ++ m0) ++ e0 ++ lines_text ts ++ (mk ++ r) ++ e ++ b) by (subst code span; now rewrite <- !app_assoc).
    rewrite Ec at 2. rewrite skip_front; auto; [|lia]. cbn [Nat.add]. rewrite lines_eol by auto.
    assert (Lk : 1 <= byte_len mk) by (destruct mk as [|c mk]; [congruence|]; rewrite byte_len_cons; pose proof (len_utf8_pos c); lia).
    assert (Le : 1 <= byte_len e0) by (destruct E0 as [-> | ->]; cbn; lia).
    assert (Ls : byte_len span = byte_len m0 + (byte_len e0 + (byte_len (lines_text ts) + byte_len mk))) by (subst span; now rewrite !byte_len_app).
    set (o1 := byte_len a + byte_len (p ++ m0) + byte_len e0).
    assert (Eo : o1 = byte_len a + (byte_len p + byte_len m0) + byte_len e0) by (subst o1; now rewrite byte_len_app).
    assert (Esl : stop = o1 + byte_len (lines_text ts) + byte_len mk) by (subst stop; lia).
    cbn [mark_lines].
    rewrite (inner_lines code start stop ts o1 ((mk ++ r) ++ e ++ b) [(mk ++ r, wide (leading white (mk ++ r)), wide mk)]); auto; try lia.
    2:{ rewrite last_piece; auto; [|rewrite byte_len_app; lia|intros X; destruct mk; [congruence|discriminate]]. cbn [mark_line].
        rewrite byte_len_app. replace (Nat.ltb _ start) with false by (symmetry; apply Nat.ltb_ge; lia). replace (Nat.leb stop _) with false by (symmetry; apply Nat.leb_gt; lia).
        cbn [orb]. replace (Nat.leb _ start) with false by (symmetry; apply Nat.leb_gt; lia). cbn [rbind].
        replace (Nat.leb stop _) with true by (symmetry; apply Nat.leb_le; lia).
        assert (Ec2 : code = (a ++ (p ++ m0) ++ e0 ++ lines_text ts) ++ mk ++ (r ++ e ++ b)) by (rewrite Ec, <- !app_assoc; reflexivity).
        rewrite Ec2, slice_at by (rewrite !byte_len_app; lia). cbn [rbind]. now rewrite !columns_wide. }
    cbn [mark_line]. rewrite byte_len_app.
    replace (Nat.ltb _ start) with false by (symmetry; apply Nat.ltb_ge; lia). replace (Nat.leb stop (byte_len a)) with false by (symmetry; apply Nat.leb_gt; lia).
    cbn [orb]. replace (Nat.leb (byte_len a) start) with true by (symmetry; apply Nat.leb_le; lia).
    rewrite (slice_at a p (span ++ r ++ e ++ b)) by auto. cbn [rbind].
    replace (Nat.leb stop _) with false by (symmetry; apply Nat.leb_gt; lia).
    destruct m0 as [|c m0].
    - cbn [byte_len]. replace (Nat.eqb _ start) with true by (symmetry; apply Nat.eqb_eq; cbn; lia). cbn [rbind]. now rewrite columns_wide.
    - assert (L0 : 1 <= byte_len (c :: m0)) by (rewrite byte_len_cons; pose proof (len_utf8_pos c); lia).
      replace (Nat.eqb _ start) with false by (symmetry; apply Nat.eqb_neq; lia). cbn [rbind]. now rewrite !columns_wide.
  Qed.

  (** ** No panic *)
  Lemma line_places : forall s off, Forall (fun l => exists x y, s = x ++ y /\ fst l = off + byte_len x) (lines_at bc off (split_lf s)).
  Proof.
    intros s. induction s as [s IH] using len_ind. intros off. destruct (in_dec N.eq_dec 10%N s) as [I|NI].
    - destruct (first_lf s I) as (x & y & -> & N). rewrite lines_at_piece by auto. constructor.
      + exists [], (x ++ 10%N :: y). cbn. split; [reflexivity|lia].
      + eapply Forall_impl; [|apply (IH y); rewrite app_length; cbn; lia]. intros l (u & v & -> & E). exists (x ++ 10%N :: u), v.
        split; [now rewrite <- app_assoc|]. rewrite E, byte_len_app, byte_len_cons. change (len_utf8 10) with 1. lia.
    - rewrite split_lf_last by auto. cbn. destruct s as [|c s]; constructor; [|constructor]. exists [], (c :: s). cbn. split; [reflexivity|lia].
  Qed.
  Lemma between : forall x y u v : str, x ++ y = u ++ v -> byte_len x <= byte_len u -> exists m, u = x ++ m /\ y = m ++ v.
  Proof.
    induction x as [|c x IH]; intros y u v E L; [exists u; now split|]. destruct u as [|d u].
    - rewrite byte_len_cons in L. pose proof (len_utf8_pos c). cbn in L. lia.
    - cbn in E. injection E as -> E. rewrite !byte_len_cons in L. destruct (IH y u v E ltac:(lia)) as (m & -> & ->). now exists m.
  Qed.
  Lemma marks_total : forall code pre post start stop stop_ok ls, code = pre ++ post -> start = byte_len pre ->
    (stop_ok = true -> exists u v, code = u ++ v /\ stop = byte_len u) -> (stop_ok = false -> byte_len code < stop) ->
    Forall (fun l => exists x y, code = x ++ snd l ++ y /\ fst l = byte_len x) ls -> exists r, mark_lines white code start stop ls = Ok r.
  Proof.
    intros code pre post start stop ok ls Ec -> Hok Hno H. induction H as [|[o t] ls (x & y & Ex & Eo) H IH]; [eexists; reflexivity|].
    destruct IH as (r & Er). cbn [fst snd] in *. cbn [mark_lines mark_line].
    assert (X : exists m, (if Nat.ltb (o + byte_len t) (byte_len pre) || Nat.leb stop o then Ok None else
       let? s := (if Nat.leb o (byte_len pre) then let? t := slice_bytes o (byte_len pre) code in Ok (columns t) else Ok (columns (leading white t))) in
       let? e := (if Nat.leb stop (o + byte_len t) then let? t := slice_bytes o stop code in Ok (columns t)
                  else if Nat.eqb (o + byte_len t) (byte_len pre) then Ok (s + 1) else Ok (columns (trim_end white t))) in
       Ok (Some (t, s, e))) = Ok m).
    { destruct (Nat.ltb _ _ || Nat.leb stop o) eqn:Sk; [eexists; reflexivity|]. apply orb_false_iff in Sk. destruct Sk as [_ Sk]. apply Nat.leb_gt in Sk.
      assert (S1 : exists n, (if Nat.leb o (byte_len pre) then let? t := slice_bytes o (byte_len pre) code in Ok (columns t) else Ok (columns (leading white t))) = Ok n).
      { destruct (Nat.leb_spec o (byte_len pre)) as [L|L]; [|eexists; reflexivity]. rewrite Ec in Ex. destruct (between x (t ++ y) pre post (eq_sym Ex) ltac:(lia)) as (m & -> & Em).
        exists (columns m). rewrite Ec. rewrite <- app_assoc, slice_at by (rewrite ?byte_len_app; lia). reflexivity. }
      destruct S1 as (n & ->). cbn [rbind]. destruct (Nat.leb_spec stop (o + byte_len t)) as [L|L].
      - destruct ok; [|exfalso; specialize (Hno eq_refl); rewrite Ex, !byte_len_app in Hno; lia]. destruct (Hok eq_refl) as (u & v & Eu & ->).
        rewrite Eu in Ex. destruct (between x (t ++ y) u v (eq_sym Ex) ltac:(lia)) as (m & -> & Em). rewrite Eu, <- app_assoc, slice_at by (rewrite ?byte_len_app; lia). eexists; reflexivity.
      - destruct (Nat.eqb _ _); eexists; reflexivity. }
    destruct X as (m & ->). cbn [rbind]. rewrite Er. cbn [rbind]. eexists; reflexivity.
  Qed.
  Lemma line_spots : forall s off, Forall (fun l => exists x y, s = x ++ snd l ++ y /\ fst l = off + byte_len x) (lines_at bc off (split_lf s)).
  Proof.
    intros s. induction s as [s IH] using len_ind. intros off. destruct (in_dec N.eq_dec 10%N s) as [I|NI].
    - destruct (first_lf s I) as (x & y & -> & N). rewrite lines_at_piece by auto. constructor.
      + cbn [fst snd]. destruct (strip_cr_pre x) as (w & Ew). exists [], (w ++ 10%N :: y). cbn [app]. rewrite app_assoc, <- Ew. split; [reflexivity|cbn; lia].
      + eapply Forall_impl; [|apply (IH y); rewrite app_length; cbn; lia]. intros l (u & v & E & El). exists (x ++ 10%N :: u), v. cbv beta in *.
        split; [rewrite E at 1; now rewrite <- app_assoc|]. rewrite El, byte_len_app, byte_len_cons. change (len_utf8 10) with 1. lia.
    - rewrite split_lf_last by auto. cbn. destruct s as [|c s]; constructor; [|constructor]. cbn [fst snd]. destruct bc.
      + destruct (strip_cr_pre (c :: s)) as (w & Ew). exists [], w. cbn [app]. split; [exact Ew|cbn; lia].
      + exists [], []. rewrite app_nil_r. cbn. split; [reflexivity|lia].
  Qed.
  Lemma spots : forall code, Forall (fun l => exists x y, code = x ++ snd l ++ y /\ fst l = byte_len x) (str_lines bc code).
  Proof. intros code. exact (line_spots code 0). Qed.
  Lemma print_total : forall pre mid post, exists x, print_trace white bc (pre ++ mid ++ post) (byte_len pre) (byte_len mid) = Ok x.
  Proof.
    intros pre mid post. unfold print_trace. destruct (Nat.ltb 0 (byte_len mid)); [|eexists; reflexivity].
    destruct (marks_total (pre ++ mid ++ post) pre (mid ++ post) (byte_len pre) (byte_len pre + byte_len mid) true (str_lines bc (pre ++ mid ++ post)) eq_refl eq_refl) as (r & E).
    - intros _. exists (pre ++ mid), post. split; [now rewrite <- app_assoc|now rewrite byte_len_app].
    - discriminate.
    - apply spots.
    - unfold trace_code_lines. rewrite E. eexists; reflexivity.
  Qed.
  (** At the end of the text. *)
  Lemma end_print : forall a p, fresh a -> line_text p -> p <> [] ->
    parse_trace white bc (a ++ p) (byte_len (a ++ p)) 0 = Ok (Excerpt (wide p) [p] (Some (N.min 10000 (N.of_nat (wide p)), N.of_nat (wide p + 1) - N.min 10000 (N.of_nat (wide p)))%N)).
  Proof.
    intros a p Fa T N. unfold parse_trace. cbn [Nat.eqb andb]. destruct (a ++ p) as [|c0 s0] eqn:E0; [destruct a; [subst; now destruct N|discriminate]|]. rewrite <- E0 in *. cbn [negb].
    apply one_print; [lia| |lia]. unfold trace_code_lines, str_lines. rewrite skip_front; auto; [|rewrite byte_len_app; lia]. rewrite lines_last by auto.
    cbn [Nat.add mark_lines mark_line]. rewrite byte_len_app. rewrite Nat.ltb_irrefl. replace (Nat.leb _ (byte_len a)) with false by (symmetry; apply Nat.leb_gt; lia). cbn [orb].
    replace (Nat.leb (byte_len a) _) with true by (symmetry; apply Nat.leb_le; lia).
    replace (slice_bytes (byte_len a) (byte_len a + byte_len p) (a ++ p)) with (Ok p) by (rewrite <- (app_nil_r (a ++ p)), <- app_assoc; symmetry; now apply slice_at).
    cbn [rbind]. replace (Nat.leb _ _) with false by (symmetry; apply Nat.leb_gt; lia). rewrite Nat.eqb_refl. cbn [rbind]. now rewrite columns_wide.
  Qed.
  Lemma end_fresh : forall a, fresh a -> parse_trace white bc a (byte_len a) 0 = Ok (Excerpt 0 [] None).
  Proof.
    intros a Fa. unfold parse_trace. destruct a as [|c a]; [reflexivity|]. cbn [Nat.eqb andb negb]. unfold print_trace. cbn [Nat.ltb Nat.leb].
    unfold trace_code_lines, str_lines. assert (X := skip_front (c :: a) (byte_len (c :: a)) (byte_len (c :: a) + 1) (c :: a) [] 0 Fa (le_n _)). rewrite app_nil_r in X. rewrite X.
    reflexivity.
  Qed.

  (** ** White space *)
  Lemma leading_spec : forall s, exists x, s = leading white s ++ x /\ all_white white (leading white s) /\ starts_ink white x.
  Proof.
    induction s as [|c s (x & E & A & B)]; [exists []; repeat split; constructor|]. cbn [leading]. destruct (white c) eqn:W.
    - exists x. rewrite E at 1. repeat split; auto. now constructor.
    - exists (c :: s). repeat split; [constructor|exact W].
  Qed.
  Lemma trim_spec : forall s, exists w, s = trim_end white s ++ w /\ all_white white w /\ ends_ink white (trim_end white s).
  Proof.
    intros s. unfold trim_end, ends_ink. rewrite rev_involutive.
    assert (X : forall r, exists w, r = w ++ drop_white white r /\ all_white white w /\ starts_ink white (drop_white white r)).
    { induction r as [|c r (w & E & A & B)]; [exists []; repeat split; constructor|]. cbn [drop_white]. destruct (white c) eqn:W.
      - exists (c :: w). rewrite E at 1. repeat split; auto. now constructor.
      - exists []. repeat split; [constructor|exact W]. }
    destruct (X (rev s)) as (w & E & A & B). exists (rev w). rewrite <- rev_app_distr, <- E, rev_involutive. repeat split; auto. now apply Forall_rev.
  Qed.
End S.

(** ** Marks *)
Lemma least_spec : forall ls, ls <> [] -> Forall (fun l : str * nat * nat => (N.of_nat (snd (fst l)) <= 10000)%N) ls -> is_least (least ls) (map (fun l => snd (fst l)) ls).
Proof.
  intros ls N F. unfold least.
  assert (G : forall ls x0, (N.of_nat x0 <= 10000)%N -> is_least (fold_left (fun x (l : str * nat * nat) => N.min x (N.of_nat (snd (fst l)))) ls (N.of_nat x0)) (x0 :: map (fun l => snd (fst l)) ls)).
  { clear. induction ls as [|l ls IH]; intros x0 L; cbn [fold_left map].
    - split; [repeat constructor; lia|]. exists x0. split; [now left|reflexivity].
    - replace (N.min (N.of_nat x0) (N.of_nat (snd (fst l)))) with (N.of_nat (Nat.min x0 (snd (fst l)))) by lia.
      destruct (IH (Nat.min x0 (snd (fst l)))) as [A (x & I & E)]; [lia|]. apply Forall_cons_iff in A. destruct A as [A1 A2]. split.
      + constructor; [lia|]. constructor; [lia|exact A2].
      + destruct I as [<-|I]; [|exists x; split; [right; now right|exact E]].
        destruct (Nat.le_ge_cases x0 (snd (fst l))); [exists x0|exists (snd (fst l))]; (split; [cbn; tauto|lia]). }
  destruct ls as [|l ls]; [congruence|]. apply Forall_cons_iff in F. destruct F as [Fl F]. cbn [fold_left map].
  replace (N.min 10000 (N.of_nat (snd (fst l)))) with (N.of_nat (snd (fst l))) by lia. now apply G.
Qed.
Lemma greatest_spec : forall ls, ls <> [] -> is_greatest (greatest ls) (map (fun l : str * nat * nat => snd l) ls).
Proof.
  intros ls N. unfold greatest.
  assert (G : forall ls x0, is_greatest (fold_left (fun x (l : str * nat * nat) => N.max x (N.of_nat (snd l))) ls (N.of_nat x0)) (x0 :: map (fun l => snd l) ls)).
  { clear. induction ls as [|l ls IH]; intros x0; cbn [fold_left map].
    - split; [repeat constructor; lia|]. exists x0. split; [now left|reflexivity].
    - replace (N.max (N.of_nat x0) (N.of_nat (snd l))) with (N.of_nat (Nat.max x0 (snd l))) by lia.
      destruct (IH (Nat.max x0 (snd l))) as [A (x & I & E)]. apply Forall_cons_iff in A. destruct A as [A1 A2]. split.
      + constructor; [lia|]. constructor; [lia|exact A2].
      + destruct I as [<-|I]; [|exists x; split; [right; now right|exact E]].
        destruct (Nat.le_ge_cases x0 (snd l)); [exists (snd l)|exists x0]; (split; [cbn; tauto|lia]). }
  destruct ls as [|l ls]; [congruence|]. cbn [fold_left map]. rewrite N.max_0_l. apply G.
Qed.
Lemma print_marks : forall white bc code start len ls, 0 < len -> trace_code_lines white bc code start (start + len) = Ok ls -> ls <> [] ->
  Forall (fun l => (N.of_nat (snd (fst l)) <= 10000)%N) ls ->
  exists lo hi, is_least lo (map (fun l => snd (fst l)) ls) /\ is_greatest hi (map snd ls) /\
    print_trace white bc code start len = Ok (Excerpt (hd 0 (map (fun l => snd (fst l)) ls)) (map (fun l => fst (fst l)) ls) (if (lo <? hi)%N then Some (lo, hi - lo)%N else None)).
Proof.
  intros white bc code start len ls L H N F. exists (least ls), (greatest ls). split; [now apply least_spec|]. split; [now apply greatest_spec|].
  unfold print_trace. replace (Nat.ltb 0 len) with true by (symmetry; now apply Nat.ltb_lt). rewrite H. cbn [rbind]. destruct ls as [|[[t s] e] ls]; [congruence|]. reflexivity.
Qed.

(** Nothing to mark. *)
Lemma zero_marks : forall ts : list (nat * str), greatest (map (fun l => (snd l, 0, 0)) ts) = 0%N.
Proof.
  intros ts. unfold greatest. assert (G : forall n, fold_left (fun y (l : str * nat * nat) => N.max y (N.of_nat (snd l))) (map (fun l : nat * str => (snd l, 0, 0)) ts) n = n).
  { induction ts as [|l ts IH]; intros n; cbn [map fold_left snd]; [reflexivity|]. rewrite IH. apply N.max_0_r. }
  apply G.
Qed.
Lemma whole_lines : forall bc ts off t, Forall (fun l => line_text (fst l) /\ eol (snd l)) ts -> line_text t ->
  map snd (lines_at bc off (split_lf (lines_text ts ++ t))) = map fst ts ++ match t with [] => [] | _ => [t] end.
Proof.
  intros bc ts. induction ts as [|[u e] ts IH]; intros off t F T; cbn [map app].
  - destruct t as [|c t]; [reflexivity|]. cbn [lines_text map concat app]. rewrite lines_last by (auto; discriminate). reflexivity.
  - apply Forall_cons_iff in F. destruct F as [[Fu Fe] F]. cbn [fst snd] in *. unfold lines_text. cbn [map concat fst snd]. fold (lines_text ts).
    rewrite <- !app_assoc, lines_eol by auto. cbn [map snd]. f_equal. now apply IH.
Qed.
Lemma whole_print : forall white bc ts t start, Forall (fun l => line_text (fst l) /\ eol (snd l)) ts -> line_text t ->
  print_trace white bc (lines_text ts ++ t) start 0 = Ok (Excerpt 0 (map fst ts ++ match t with [] => [] | _ => [t] end) None).
Proof.
  intros white bc ts t start F T. unfold print_trace. cbn [Nat.ltb Nat.leb rbind]. rewrite zero_marks.
  replace (N.ltb _ 0) with false by (symmetry; apply N.ltb_ge; lia). rewrite <- (whole_lines bc ts 0 t F T), map_map. cbn [fst]. f_equal. f_equal.
  destruct (str_lines bc (lines_text ts ++ t)) as [|[? ?] ?]; reflexivity.
Qed.

(** Any span that can be cut out. *)
Lemma cut_split : forall s e line m, slice_bytes s e line = Ok m -> exists x y, line = x ++ m ++ y /\ s = byte_len x /\ e = s + byte_len m.
Proof.
  intros s e line m H. unfold slice_bytes in H. destruct (Nat.leb_spec s e); [|discriminate]. destruct (drop_bytes s line) as [r|] eqn:E1; [|discriminate].
  destruct (take_bytes (e - s) r) as [t'|] eqn:E2; [|discriminate]. injection H as ->. apply drop_inv in E1. destruct E1 as (p & E1 & L1). apply take_inv in E2.
  destruct E2 as (q & -> & L2). exists p, q. repeat split; [exact E1|lia|lia].
Qed.
Lemma tag_print : forall white bc line lo hi t, sp_tag line lo hi t ->
  exists x, print_trace white bc line (N.to_nat (tg_s t)) (N.to_nat (tg_e t) - N.to_nat (tg_s t)) = Ok x.
Proof.
  intros white bc line lo hi t (_ & _ & _ & H). apply cut_split in H. destruct H as (x & y & -> & -> & ->). replace (byte_len x + _ - _) with (byte_len (tg_str t)) by lia.
  apply print_total.
Qed.

(** Text of one character over and over. *)
Lemma wide_repeat : forall n, wide (repeat 97%N n) = n.
Proof. intros n. rewrite <- columns_wide. induction n as [|n IH]; [reflexivity|]. change (1 + columns (repeat 97%N n) = S n). now rewrite IH. Qed.
Lemma repeat_text : forall n, line_text (repeat 97%N n).
Proof.
  intros n. split; [intros I; apply repeat_spec in I; discriminate|]. intros x E. assert (I : In 13%N (repeat 97%N n)) by (rewrite E; apply in_app_iff; right; now left).
  apply repeat_spec in I. discriminate.
Qed.
Lemma far_print : forall white bc n, exists code, print_trace white bc code n 1 =
  Ok (Excerpt n [code] (Some (N.min 10000 (N.of_nat n), N.of_nat (n + 1) - N.min 10000 (N.of_nat n))%N)).
Proof.
  intros white bc n. exists (repeat 97%N n ++ [97%N]).
  assert (B : byte_len (repeat 97%N n) = n) by (induction n as [|n IH]; [reflexivity|]; change (1 + byte_len (repeat 97%N n) = S n); now rewrite IH).
  assert (R : repeat 97%N n ++ [97%N] = repeat 97%N (n + 1)) by (rewrite repeat_app; reflexivity).
  assert (X := single_print white bc [] (repeat 97%N n) [97%N] [] [] []). cbn [app] in X. rewrite B in X.
  rewrite R, !wide_repeat in X. rewrite R. apply X; [now left|apply repeat_text|right; now split|discriminate].
Qed.
