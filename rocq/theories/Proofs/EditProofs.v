From Coq Require Import List Arith Lia NArith Bool.
From Verif Require Import Model.Base Model.Utf Model.Shell Spec.ShellSpec Proofs.UtfLemmas.
Import ListNotations.

Lemma firstn_app_exact : forall A (a b : list A), firstn (length a) (a ++ b) = a.
Proof. intros. rewrite firstn_app, Nat.sub_diag, firstn_all, firstn_O. apply app_nil_r. Qed.

Lemma skipn_app_exact : forall A (a b : list A), skipn (length a) (a ++ b) = b.
Proof. intros. rewrite skipn_app, Nat.sub_diag, skipn_all. reflexivity. Qed.

Lemma shows_split : forall b z, shows b z -> ib_pos b <= length (ib_buf b) /\
  firstn (ib_pos b) (ib_buf b) = fst z /\ skipn (ib_pos b) (ib_buf b) = snd z.
Proof.
  intros b [x y] [H1 H2]. cbn in *. rewrite H1, H2, firstn_app_exact, skipn_app_exact, app_length. split; auto. lia.
Qed.

Lemma insert_ok : forall c b x y, shows b (x, y) -> exists b', input_insert c b = Ok b' /\ shows b' (x ++ [c], y).
Proof.
  intros c b x y H. destruct (shows_split _ _ H) as (HL & HF & HS). cbn in HF, HS. unfold input_insert.
  rewrite (proj2 (Nat.leb_le _ _) HL), HF, HS. eexists. split; [reflexivity|]. destruct H as [_ H2]. cbn in H2.
  split; cbn; [now rewrite <- app_assoc|]. rewrite app_length, H2. reflexivity.
Qed.

Lemma insert_str_ok : forall s b x y, shows b (x, y) -> exists b', input_insert_str s b = Ok b' /\ shows b' (x ++ s, y).
Proof.
  induction s as [|c s IH]; intros b x y H; cbn.
  - exists b. rewrite app_nil_r. auto.
  - destruct (insert_ok c b x y H) as (b1 & E1 & H1). rewrite E1. cbn.
    destruct (IH _ _ _ H1) as (b2 & E2 & H2). exists b2. split; auto. now rewrite <- app_assoc in H2.
Qed.

Lemma backspace_ok : forall b x y, shows b (x, y) -> exists b' z, input_backspace b = Ok b' /\ shows b' z /\
  ideal_edit (fun _ => true) Backspace (x, y) z.
Proof.
  intros b x y H. destruct x as [|x0 x' _] using rev_ind.
  - unfold input_backspace. destruct H as [H1 H2]. cbn in H2. rewrite H2. exists b, ([], y).
    split; [reflexivity|]. split; [now split|]. constructor.
  - unfold input_backspace. destruct H as [H1 H2]. cbn [fst snd] in H1, H2. rewrite app_length in H2; cbn in H2.
    rewrite Nat.add_1_r in H2. rewrite H2. unfold vec_remove. rewrite H1, !app_length. cbn [length].
    rewrite (proj2 (Nat.ltb_lt _ _)) by lia. cbn [rbind]. exists (InputBuffer (x' ++ y) (length x')), (x', y). split.
    + do 2 f_equal. rewrite <- app_assoc, firstn_app_exact. f_equal.
      replace (x' ++ [x0] ++ y) with ((x' ++ [x0]) ++ y) by now rewrite <- app_assoc.
      replace (S (length x')) with (length (x' ++ [x0])) by (rewrite app_length; cbn; lia).
      apply skipn_app_exact.
    + split; [now split|]. constructor.
Qed.

Lemma delete_ok : forall b x y, shows b (x, y) -> exists b', input_delete b = Ok b' /\ shows b' (x, tl y).
Proof.
  intros b x y [H1 H2]. cbn in H1, H2. unfold input_delete. rewrite H1, H2, app_length.
  destruct y as [|c y]; cbn [length tl].
  - rewrite (proj2 (Nat.ltb_ge _ _)) by lia. exists b. split; auto. now split.
  - rewrite (proj2 (Nat.ltb_lt _ _)) by lia. unfold vec_remove. rewrite app_length. cbn [length].
    rewrite (proj2 (Nat.ltb_lt _ _)) by lia. cbn [rbind]. eexists. split; [reflexivity|]. split; cbn [ib_buf ib_pos fst snd]; auto.
    rewrite firstn_app_exact. f_equal. replace (x ++ c :: y) with ((x ++ [c]) ++ y) by now rewrite <- app_assoc.
    replace (S (length x)) with (length (x ++ [c])) by (rewrite app_length; cbn; lia). apply skipn_app_exact.
Qed.

Lemma word_count_true : forall alnum cs, exists word rest, cs = word ++ rest /\
  word_count alnum true cs = length word /\ Forall (fun c => word_char alnum c = true) word /\
  match rest with [] => True | c :: _ => word_char alnum c = false end.
Proof.
  intros alnum. induction cs as [|c cs IH]; [exists [], []; repeat split; auto|].
  cbn. destruct (word_char alnum c) eqn:E; cbn.
  - destruct IH as (w & r & -> & H1 & H2 & H3). exists (c :: w), r. repeat split; auto. cbn. now rewrite H1.
  - exists [], (c :: cs). repeat split; auto.
Qed.

Lemma word_count_jump : forall alnum cs, word_jump (word_char alnum) cs (word_count alnum false cs).
Proof.
  intros alnum. induction cs as [|c cs IH]; [exists [], [], []; repeat split; auto|].
  cbn. destruct (word_char alnum c) eqn:E; cbn.
  - destruct (word_count_true alnum cs) as (w & r & -> & H1 & H2 & H3).
    exists [], (c :: w), r. repeat split; auto.
    + cbn. now rewrite H1.
    + destruct r; auto. split; auto. discriminate.
  - destruct IH as (g & w & r & -> & H1 & H2 & H3 & H4).
    exists (c :: g), w, r. repeat split; auto. cbn. now rewrite H1.
Qed.

Lemma word_count_le : forall alnum cs, word_count alnum false cs <= length cs.
Proof.
  intros alnum cs. destruct (word_count_jump alnum cs) as (g & w & r & E & H & _). rewrite H, E, !app_length. lia.
Qed.

Lemma jump_ok : forall alnum m cs, jump (word_char alnum) m cs (Nat.min (mv_magnitude alnum m cs) (length cs)).
Proof.
  intros alnum m cs. destruct m as [n|]; cbn; [reflexivity|].
  rewrite Nat.min_l by apply word_count_le. apply word_count_jump.
Qed.

Theorem edit_step_ideal : forall alnum op b z, shows b z ->
  exists b' z', edit_step alnum op b = Ok b' /\ shows b' z' /\ ideal_edit (word_char alnum) op z z'.
Proof.
  intros alnum op b [x y] H. destruct op as [c|s| | | | |m|m]; cbn [edit_step].
  - destruct (insert_ok c b x y H) as (b' & E & H'). exists b', (x ++ [c], y). repeat split; auto; try apply H'. constructor.
  - destruct (insert_str_ok s b x y H) as (b' & E & H'). exists b', (x ++ s, y). repeat split; auto; try apply H'. constructor.
  - destruct (backspace_ok b x y H) as (b' & z & E & H' & HI). exists b', z. repeat split; auto; try apply H'.
    inversion HI; subst; constructor.
  - destruct (delete_ok b x y H) as (b' & E & H'). exists b', (x, tl y). repeat split; auto; try apply H'.
    destruct y; constructor.
  - exists (input_move_start b), ([], x ++ y). repeat split; cbn; auto; try apply H. constructor.
  - exists (input_clear b), ([], []). repeat split; auto. constructor.
  - unfold input_move_left. destruct (shows_split _ _ H) as (HL & HF & HS). cbn in HF, HS.
    rewrite (proj2 (Nat.leb_le _ _) HL), HF. destruct H as [H1 H2]. cbn in H1, H2. rewrite H2.
    pose proof (jump_ok alnum m (rev x)) as HJ. rewrite rev_length in HJ.
    set (n := mv_magnitude alnum m (rev x)) in *.
    eexists. exists (firstn (length x - n) x, skipn (length x - n) x ++ y). split; [reflexivity|].
    split; [split; cbn [ib_buf ib_pos fst snd]|].
    + rewrite H1, app_assoc, firstn_skipn. reflexivity.
    + rewrite firstn_length. lia.
    + rewrite <- (firstn_skipn (length x - n) x) at 1. constructor. rewrite firstn_skipn.
      rewrite skipn_length. replace (length x - (length x - n)) with (Nat.min n (length x)) by lia. exact HJ.
  - unfold input_move_right. destruct (shows_split _ _ H) as (HL & HF & HS). cbn in HF, HS.
    rewrite (proj2 (Nat.leb_le _ _) HL), HS. destruct H as [H1 H2]. cbn in H1, H2. rewrite H2.
    pose proof (jump_ok alnum m y) as HJ. set (n := mv_magnitude alnum m y) in *.
    eexists. exists (x ++ firstn n y, skipn n y). split; [reflexivity|].
    split; [split; cbn [ib_buf ib_pos fst snd]|].
    + rewrite H1, <- app_assoc, firstn_skipn. reflexivity.
    + rewrite H1, !app_length, firstn_length. lia.
    + rewrite <- (firstn_skipn n y) at 1. constructor. rewrite firstn_skipn, firstn_length. exact HJ.
Qed.

Theorem edit_steps_ideal : forall alnum ops b z, shows b z ->
  exists b' z', edit_steps alnum ops b = Ok b' /\ shows b' z' /\ ideal_edits (word_char alnum) ops z z'.
Proof.
  intros alnum. induction ops as [|op ops IH]; intros b z H; cbn [edit_steps].
  - exists b, z. repeat split; try apply H. constructor.
  - destruct (edit_step_ideal alnum op b z H) as (b1 & z1 & E1 & H1 & I1). rewrite E1. cbn [rbind].
    destruct (IH b1 z1 H1) as (b2 & z2 & E2 & H2 & I2). exists b2, z2. split; auto. split; auto.
    econstructor; eauto.
Qed.

Theorem editor_correct : forall alnum ops, exists b z,
  edit_steps alnum ops input_new = Ok b /\ shows b z /\ ideal_edits (word_char alnum) ops ([], []) z.
Proof. intros. apply edit_steps_ideal. now split. Qed.

(** The ideal editor is deterministic. *)
Lemma word_jump_fun : forall wc cs n m, word_jump wc cs n -> word_jump wc cs m -> n = m.
Proof.
  intros wc. induction cs as [|c cs IH]; intros n m (g & w & r & E & -> & G & W & R) (g' & w' & r' & E' & -> & G' & W' & R').
  - destruct g, w, r; try discriminate. destruct g', w', r'; try discriminate. reflexivity.
  - assert (Hw : forall w1 w2 r1 r2, w1 ++ r1 = w2 ++ r2 ->
      Forall (fun c => wc c = true) w1 -> Forall (fun c => wc c = true) w2 ->
      match r1 with [] => True | c :: _ => wc c = false end ->
      match r2 with [] => True | c :: _ => wc c = false end -> length w1 = length w2).
    { clear. induction w1 as [|a w1 IH]; intros [|b w2] r1 r2 E H1 H2 N1 N2; cbn in *; auto.
      - subst r1. inversion H2; subst. congruence.
      - subst r2. inversion H1; subst. congruence.
      - injection E as -> E. inversion H1; inversion H2; subst. f_equal. eapply IH; eauto. }
    destruct g as [|a g], g' as [|a' g'].
    + cbn in E, E' |- *. eapply Hw; [etransitivity; [symmetry; exact E|exact E']|..]; auto.
      * destruct r; auto. apply R.
      * destruct r'; auto. apply R'.
    + cbn in E'. injection E' as <- E'. inversion G'; subst. destruct w as [|b w].
      * cbn in E. destruct r; [discriminate|]. destruct R as [_ R]. congruence.
      * cbn in E. injection E as <- E. inversion W; subst. congruence.
    + cbn in E. injection E as <- E. inversion G; subst. destruct w' as [|b w'].
      * cbn in E'. destruct r'; [discriminate|]. destruct R' as [_ R']. congruence.
      * cbn in E'. injection E' as <- E'. inversion W'; subst. congruence.
    + cbn in E, E'. injection E as <- E. injection E' as <- E'. cbn. f_equal. inversion G; inversion G'; subst.
      apply IH; [exists g, w, r|exists g', w', r']; repeat split; auto.
Qed.

Lemma jump_fun : forall wc m cs n k, jump wc m cs n -> jump wc m cs k -> n = k.
Proof. intros wc [x|] cs n k; cbn; [congruence|apply word_jump_fun]. Qed.

Lemma app_len_inj : forall A (a b c d : list A), a ++ b = c ++ d -> length a = length c -> a = c /\ b = d.
Proof.
  induction a as [|x a IH]; intros b [|y c] d E L; cbn in *; try discriminate; auto.
  injection E as -> E. destruct (IH b c d E) as [-> ->]; auto.
Qed.

Theorem ideal_edit_unique : forall wc op x y z, ideal_edit wc op x y -> ideal_edit wc op x z -> y = z.
Proof.
  intros wc op x y z H1 H2. destruct H1; inversion H2; subst; auto.
  - apply app_inj_tail in H. destruct H as [-> _]. reflexivity.
  - symmetry in H. apply app_eq_nil in H. destruct H; discriminate.
  - destruct a; discriminate.
  - match goal with E : ?p ++ ?q = a1 ++ a2, J : jump _ _ _ (length ?q) |- _ =>
      assert (L : length a2 = length q) by (eapply jump_fun; [exact H|]; now rewrite <- E);
      assert (length p = length a1) by (apply (f_equal (@length N)) in E; rewrite !app_length in E; lia);
      destruct (app_len_inj _ _ _ _ _ E); auto
    end. subst. reflexivity.
  - match goal with E : ?p ++ ?q = b1 ++ b2, J : jump _ _ _ (length ?p) |- _ =>
      assert (L : length b1 = length p) by (eapply jump_fun; [exact H|]; now rewrite <- E);
      destruct (app_len_inj _ _ _ _ _ E); auto
    end. subst. reflexivity.
Qed.

(** The byte position of the cursor cuts the text exactly at the cursor. *)
Theorem buf_pos_boundary : forall b z, shows b z -> exists n, input_buf_pos b = Ok n /\
  take_bytes n (ib_buf b) = Some (fst z) /\ drop_bytes n (ib_buf b) = Some (snd z).
Proof.
  intros b z H. destruct (shows_split _ _ H) as (HL & HF & HS). unfold input_buf_pos.
  rewrite (proj2 (Nat.leb_le _ _) HL), HF. exists (byte_len (fst z)). split; auto.
  destruct H as [-> _]. split; [apply take_bytes_app|apply drop_bytes_app].
Qed.

Theorem insert_backspace : forall c b z, shows b z ->
  exists b', input_insert c b = Ok b' /\ input_backspace b' = Ok b.
Proof.
  intros c b [x y] H. destruct (insert_ok c b x y H) as (b1 & E1 & H1). exists b1. split; auto.
  destruct (backspace_ok b1 _ _ H1) as (b2 & z & E2 & H2 & I2). rewrite E2. f_equal.
  assert (z = (x, y)) as -> by (eapply ideal_edit_unique; [exact I2|constructor]).
  destruct b, b2, H as [A1 A2], H2 as [B1 B2]; cbn in *. congruence.
Qed.
