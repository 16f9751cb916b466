From Coq Require Import List Arith Lia NArith Bool.
From Verif Require Import Model.Base Model.Shell Spec.ShellSpec.
Import ListNotations.

Lemma lastn_length : forall A n (l : list A), length (lastn n l) = Nat.min n (length l).
Proof. intros. unfold lastn. rewrite skipn_length. lia. Qed.

Lemma lastn_all : forall A n (l : list A), length l <= n -> lastn n l = l.
Proof. intros. unfold lastn. now replace (length l - n) with 0 by lia. Qed.

Lemma skipn_skipn' : forall A a b (l : list A), skipn a (skipn b l) = skipn (b + a) l.
Proof.
  intros A a b. revert a. induction b as [|b IH]; intros a l; [reflexivity|].
  destruct l; [now rewrite !skipn_nil|]. cbn. apply IH.
Qed.

Lemma lastn_snoc : forall A n (l : list A) x, lastn (S n) (l ++ [x]) = lastn n l ++ [x].
Proof.
  intros. unfold lastn. rewrite app_length; cbn. replace (length l + 1 - S n) with (length l - n) by lia.
  rewrite skipn_app. replace (length l - n - length l) with 0 by lia. reflexivity.
Qed.

Lemma lastn_lastn : forall A n m (l : list A), n <= m -> lastn n (lastn m l) = lastn n l.
Proof.
  intros A n m l H. unfold lastn at 1. rewrite lastn_length. unfold lastn. rewrite skipn_skipn'.
  f_equal. lia.
Qed.

Lemma lim_pos : 1 <= history_lim.
Proof. unfold history_lim. lia. Qed.

Lemma trim_lastn : forall l, history_trim l = lastn (history_lim - 1) l.
Proof.
  pose proof lim_pos as HL.
  induction l as [|x l IH]; [reflexivity|]. cbn [history_trim].
  destruct (Nat.leb_spec history_lim (length (x :: l))) as [H|H].
  - rewrite IH. unfold lastn. cbn [length] in H |- *.
    replace (S (length l) - (history_lim - 1)) with (S (length l - (history_lim - 1))) by lia. reflexivity.
  - symmetry. apply lastn_all. lia.
Qed.

Definition h_ok (h : history) : Prop :=
  match h_idx h with Some i => i <= length (h_items h) - 1 | None => True end.

Lemma step_ok : forall h op, h_ok h -> h_ok (history_step h op).
Proof.
  intros [items idx] [l| |]; unfold h_ok; cbn; auto.
  - intros H. destruct idx as [[|i]|]; cbn; try lia. 
  - intros H. destruct idx as [i|]; cbn; [|lia]. destruct (Nat.eqb_spec i (length items - 1)); auto. lia.
Qed.

Lemma run_ok : forall ops h, h_ok h -> h_ok (fold_left history_step ops h).
Proof. induction ops as [|op ops IH]; intros h H; cbn; auto. apply IH, step_ok, H. Qed.

Lemma run_items : forall ops h, h_items (fold_left history_step ops h) =
  lastn history_lim (h_items h ++ entered ops) \/ (entered ops = [] /\ h_items (fold_left history_step ops h) = h_items h).
Proof.
  pose proof lim_pos as HL.
  induction ops as [|op ops IH]; intros h; cbn [fold_left entered]; auto.
  destruct op as [l| |]; cbn [history_step entered].
  - left. assert (E : h_items (history_add l h) = lastn history_lim (h_items h ++ [l])).
    { unfold history_add. cbn. rewrite trim_lastn. now rewrite <- lastn_snoc. }
    destruct (IH (history_add l h)) as [H|[H1 H2]].
    + rewrite H, E. replace (h_items h ++ l :: entered ops) with ((h_items h ++ [l]) ++ entered ops)
        by now rewrite <- app_assoc.
      generalize (h_items h ++ [l]) as a, (entered ops) as b. intros a b.
      unfold lastn. rewrite !app_length, skipn_length.
      rewrite !skipn_app, skipn_skipn', skipn_length. f_equal; f_equal; lia.
    + rewrite H1, H2, E. reflexivity.
  - destruct (IH (history_back h)) as [H|[H1 H2]]; [left|right]; auto.
  - destruct (IH (history_fwd h)) as [H|[H1 H2]]; [left|right]; auto.
Qed.

Theorem history_keeps_recent : forall ops,
  h_items (fold_left history_step ops history_new) = lastn 100 (entered ops).
Proof.
  intros ops. destruct (run_items ops history_new) as [H|[H1 H2]]; [exact H|].
  rewrite H1, H2. reflexivity.
Qed.

Theorem history_in_range : forall ops i, h_idx (fold_left history_step ops history_new) = Some i ->
  entered ops <> [] -> exists l, nth_error (lastn 100 (entered ops)) i = Some l /\
  history_current (fold_left history_step ops history_new) = Some l.
Proof.
  intros ops i Hi HN. pose proof (history_keeps_recent ops) as HI.
  assert (H : h_ok (fold_left history_step ops history_new)) by (apply run_ok; exact I).
  unfold h_ok in H. rewrite Hi, HI in H. unfold history_current. rewrite Hi, HI.
  destruct (nth_error (lastn 100 (entered ops)) i) as [l|] eqn:E; [eauto|].
  apply nth_error_None in E. rewrite lastn_length in *. destruct (entered ops); [congruence|].
  cbn [length] in *. lia.
Qed.

Theorem history_back_fwd : forall ops,
  let h := fold_left history_step ops history_new in
  history_fwd (history_back h) = h /\ history_back (history_fwd h) = h.
Proof.
  intros ops h. assert (H : h_ok h) by (apply run_ok; exact I).
  destruct h as [items idx]. unfold h_ok in H. cbn in H. unfold history_back, history_fwd. cbn.
  split; f_equal.
  - destruct idx as [[|i]|].
    + reflexivity.
    + cbn. rewrite Nat.sub_0_r. destruct (Nat.eqb_spec i (length items - 1)); [lia|]. f_equal. lia.
    + now rewrite Nat.eqb_refl.
  - destruct idx as [i|].
    + destruct (Nat.eqb_spec i (length items - 1)); [subst; reflexivity|].
      rewrite Nat.add_1_r. f_equal. cbn. lia.
    + reflexivity.
Qed.

Theorem history_n_back_n_fwd : forall ops n,
  let h := fold_left history_step ops history_new in
  iterate n history_fwd (iterate n history_back h) = h.
Proof.
  intros ops n. revert ops. induction n as [|n IH]; intros ops h; [reflexivity|].
  assert (R : forall A (f : A -> A) m x, iterate (S m) f x = iterate m f (f x)).
  { intros A f m x. induction m as [|m IHm]; [reflexivity|]. cbn in *. now rewrite IHm. }
  rewrite (R _ history_back). cbn [iterate].
  replace (history_back h) with (fold_left history_step (ops ++ [HBack]) history_new)
    by (rewrite fold_left_app; reflexivity).
  rewrite (IH (ops ++ [HBack])). rewrite fold_left_app. cbn. apply history_back_fwd.
Qed.

Lemma back_k : forall items k, k < length items ->
  iterate (S k) history_back (History items None) = History items (Some (length items - 1 - k)).
Proof.
  intros items. induction k as [|k IH]; intros H.
  - cbn. now rewrite !Nat.sub_0_r.
  - cbn [iterate] in *. rewrite IH by lia. unfold history_back at 1. cbn [h_idx h_items].
    destruct (length items - 1 - k) eqn:E; [lia|]. do 2 f_equal. lia.
Qed.

(** After entering a line, going back k+1 times shows the k-th latest line; one step further than
    the oldest line shows the empty input. *)
Theorem history_recalls : forall ops line k,
  let h := fold_left history_step (ops ++ [HAdd line]) history_new in
  let recent := lastn 100 (entered ops ++ [line]) in
  (k < length recent -> history_current (iterate (S k) history_back h) = nth_error (rev recent) k) /\
  history_current (iterate (S (length recent)) history_back h) = None.
Proof.
  intros ops line k h recent.
  assert (HI : h_items h = recent).
  { unfold h. rewrite history_keeps_recent. unfold recent. f_equal.
    clear. induction ops as [|[l| |] ops IH]; cbn; auto. now rewrite IH. }
  assert (HN : h_idx h = None) by (unfold h; rewrite fold_left_app; reflexivity).
  assert (HH : h = History recent None) by (destruct h; cbn in *; congruence).
  assert (HL : 0 < length recent).
  { unfold recent. rewrite lastn_length, app_length. cbn [length]. lia. }
  rewrite HH. clear HI HH. clearbody recent. split.
  - intros Hk. rewrite back_k by auto. unfold history_current. cbn [h_idx h_items].
    replace (length recent - 1 - k) with (length recent - S k) by lia.
    assert (Hrev : k < length (rev recent)) by now rewrite rev_length.
    rewrite (nth_error_nth' (rev recent) [] Hrev), rev_nth by auto.
    apply nth_error_nth'. lia.
  - replace (length recent) with (S (length recent - 1)) by lia.
    change (iterate (S (S (length recent - 1))) history_back (History recent None))
      with (history_back (iterate (S (length recent - 1)) history_back (History recent None))).
    rewrite back_k by lia. unfold history_back. cbn [h_idx h_items].
    replace (length recent - 1 - (length recent - 1)) with 0 by lia. reflexivity.
Qed.
