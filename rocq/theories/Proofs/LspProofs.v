From Coq Require Import List Arith Lia NArith ZArith Bool Permutation Sorted.
From Verif Require Import Model.Base Model.Utf Model.Lsp Spec.LspSpec Proofs.UtfLemmas.
Import ListNotations.

(** ** Positions *)

Lemma utf16_cons : forall c s, utf16_len (c :: s) = len_utf16 c + utf16_len s.
Proof. reflexivity. Qed.
Lemma utf16_app : forall a b, utf16_len (a ++ b) = utf16_len a + utf16_len b.
Proof. induction a as [|c a IH]; intros b; [reflexivity|]. cbn [app]. rewrite !utf16_cons, IH. lia. Qed.
Lemma len_utf16_pos : forall c, 1 <= len_utf16 c.
Proof. intros c. unfold len_utf16. destruct (_ <? _)%N; lia. Qed.

Lemma linech_loop_hit : forall a b n u v, n = u + utf16_len a -> linech_loop (a ++ b) n u v = v + byte_len a.
Proof.
  induction a as [|c a IH]; intros b n u v ->; cbn [app].
  - cbn. rewrite Nat.add_0_r. destruct b; cbn; auto. rewrite Nat.eqb_refl. auto.
  - cbn [linech_loop]. rewrite utf16_cons, byte_len_cons. pose proof (len_utf16_pos c).
    destruct (Nat.eqb_spec u (u + (len_utf16 c + utf16_len a))); [lia|].
    rewrite IH by lia. lia.
Qed.

Theorem linech_hit : forall a b, linech_to_idx (a ++ b) (utf16_len a) = byte_len a.
Proof. intros. unfold linech_to_idx. now rewrite linech_loop_hit. Qed.

Lemma linech_loop_miss : forall l n u v, (forall a b, l = a ++ b -> b <> [] -> u + utf16_len a <> n) ->
  linech_loop l n u v = v + byte_len l.
Proof.
  induction l as [|c l IH]; intros n u v H; cbn [linech_loop]; [cbn; lia|].
  destruct (Nat.eqb_spec u n) as [E|E].
  - exfalso. apply (H [] (c :: l)); auto; [discriminate|]. cbn. lia.
  - rewrite byte_len_cons, IH; [lia|]. intros a b -> Hb. specialize (H (c :: a) b eq_refl Hb).
    rewrite utf16_cons in H. lia.
Qed.

(** A column that is no character start (inside a surrogate pair, or past the end) means the line end. *)
Theorem linech_miss : forall l n, (forall a b, l = a ++ b -> utf16_len a <> n) -> linech_to_idx l n = byte_len l.
Proof. intros l n H. unfold linech_to_idx. rewrite linech_loop_miss; [reflexivity|]. intros a b E _. cbn. eauto. Qed.

Lemma linech_loop_boundary : forall l n u v, exists a b, l = a ++ b /\ linech_loop l n u v = v + byte_len a.
Proof.
  induction l as [|c l IH]; intros n u v; cbn [linech_loop].
  - exists [], []. cbn. split; auto.
  - destruct (Nat.eqb u n).
    + exists [], (c :: l). cbn. split; auto.
    + destruct (IH n (u + len_utf16 c) (v + len_utf8 c)) as (a & b & -> & ->).
      exists (c :: a), b. split; auto. rewrite byte_len_cons. lia.
Qed.

Lemma linech_boundary : forall l n, exists a b, l = a ++ b /\ linech_to_idx l n = byte_len a.
Proof. intros l n. apply (linech_loop_boundary l n 0 0). Qed.

(** *** Lines *)
Fixpoint join_lf (ps : list str) : str :=
  match ps with [] => [] | [l] => l | l :: ls => l ++ 10%N :: join_lf ls end.

Lemma split_lf_nonempty : forall s, split_lf s <> [].
Proof. destruct s as [|c s]; cbn; [discriminate|]. destruct (c =? 10)%N; [discriminate|]. destruct (split_lf s); discriminate. Qed.

Lemma join_split : forall s, join_lf (split_lf s) = s.
Proof.
  induction s as [|c s IH]; [reflexivity|]. cbn [split_lf]. pose proof (split_lf_nonempty s).
  destruct (N.eqb_spec c 10) as [->|Hc].
  - cbn [join_lf]. destruct (split_lf s) as [|l ls]; [congruence|]. now rewrite IH.
  - destruct (split_lf s) as [|l ls]; [congruence|]. destruct ls; cbn in *; congruence.
Qed.

Lemma split_lf_piece : forall x r, ~ In 10%N x -> split_lf (x ++ 10%N :: r) = x :: split_lf r.
Proof.
  induction x as [|c x IH]; intros r H; [reflexivity|]. cbn [app split_lf].
  destruct (N.eqb_spec c 10) as [->|Hc]; [exfalso; apply H; now left|].
  rewrite IH; auto. intros C. apply H. now right.
Qed.

Lemma split_lf_last : forall x, ~ In 10%N x -> split_lf x = [x].
Proof.
  induction x as [|c x IH]; intros H; [reflexivity|]. cbn [split_lf].
  destruct (N.eqb_spec c 10) as [->|Hc]; [exfalso; apply H; now left|].
  rewrite IH; auto. intros C. apply H. now right.
Qed.

Lemma first_lf : forall s, ~ In 10%N s \/ exists x r, s = x ++ 10%N :: r /\ ~ In 10%N x.
Proof.
  induction s as [|c s IH]; [left; auto|]. destruct (N.eq_dec c 10) as [->|Hc].
  - right. exists [], s. split; auto.
  - destruct IH as [H|(x & r & -> & H)].
    + left. intros [C|C]; auto.
    + right. exists (c :: x), r. split; auto. intros [C|C]; auto.
Qed.

Lemma strip_cr_prefix : forall l, exists t, l = strip_cr l ++ t.
Proof.
  intros l. unfold strip_cr. destruct (rev l) as [|c r] eqn:E.
  - exists []. now rewrite app_nil_r.
  - destruct (c =? 13)%N.
    + exists [c]. apply (f_equal (@rev _)) in E. rewrite rev_involutive in E. exact E.
    + exists []. now rewrite app_nil_r.
Qed.

Lemma strip_cr_keep : forall a b, (b = [] -> ~ exists x, a = x ++ [13%N]) -> exists t, strip_cr (a ++ b) = a ++ t.
Proof.
  intros a b H. unfold strip_cr. destruct (rev (a ++ b)) as [|c r] eqn:E.
  - exists b. reflexivity.
  - destruct (N.eqb_spec c 13) as [->|]; [|exists b; reflexivity].
    apply (f_equal (@rev _)) in E. rewrite rev_involutive in E. cbn in E.
    destruct (rev b) as [|d rb] eqn:Eb.
    + apply (f_equal (@rev _)) in Eb. rewrite rev_involutive in Eb. cbn in Eb. subst b.
      rewrite app_nil_r in E. exfalso. apply H; eauto.
    + apply (f_equal (@rev _)) in Eb. rewrite rev_involutive in Eb. cbn in Eb. subst b.
      rewrite app_assoc in E. apply app_inj_tail in E as [E _]. exists (rev rb). auto.
Qed.

Lemma lines_at_cons : forall bc off l m ls,
  lines_at bc off (l :: m :: ls) = (off, strip_cr l) :: lines_at bc (off + byte_len l + 1) (m :: ls).
Proof. reflexivity. Qed.

Lemma lines_at_piece : forall bc off x r, ~ In 10%N x ->
  lines_at bc off (split_lf (x ++ 10%N :: r)) = (off, strip_cr x) :: lines_at bc (off + byte_len x + 1) (split_lf r).
Proof.
  intros bc off x r H. rewrite split_lf_piece by auto. pose proof (split_lf_nonempty r).
  destruct (split_lf r); [congruence|]. apply lines_at_cons.
Qed.

Lemma line_feeds_app : forall a b, line_feeds (a ++ b) = line_feeds a + line_feeds b.
Proof. intros. apply count_occ_app. Qed.
Lemma line_feeds_none : forall x, ~ In 10%N x -> line_feeds x = 0.
Proof. intros x H. now apply count_occ_not_In. Qed.
Lemma line_feeds_lf : forall x, line_feeds (10%N :: x) = S (line_feeds x).
Proof. intros. unfold line_feeds. cbn. destruct (N.eq_dec 10 10); congruence. Qed.

Lemma len_lf : byte_len [10%N] = 1. Proof. reflexivity. Qed.

Lemma lines_skip : forall n before, length before <= n -> forall bc off rest k,
  nth_error (lines_at bc off (split_lf (before ++ 10%N :: rest))) (line_feeds before + 1 + k) =
  nth_error (lines_at bc (off + byte_len before + 1) (split_lf rest)) k.
Proof.
  induction n as [|n IH]; intros before HL bc off rest k.
  - destruct before; [|cbn in HL; lia]. rewrite lines_at_piece by (intros []). cbn. now rewrite Nat.add_0_r.
  - destruct (first_lf before) as [H|(x & r & -> & H)].
    + rewrite lines_at_piece by auto. rewrite line_feeds_none by auto. reflexivity.
    + rewrite <- app_assoc. cbn [app]. rewrite lines_at_piece by auto.
      rewrite line_feeds_app, line_feeds_lf, (line_feeds_none x) by auto. cbn [plus nth_error].
      rewrite IH.
      * rewrite byte_len_app, byte_len_cons. change (len_utf8 10) with 1. do 2 f_equal. f_equal. lia.
      * rewrite app_length in HL. cbn in HL. lia.
Qed.

(** The piece that contains the split point. *)
Lemma line_here : forall bc off line post, ~ In 10%N line -> not_after_cr line post ->
  match nth_error (lines_at bc off (split_lf (line ++ post))) 0 with
  | Some (o, l) => o = off /\ exists t, l = line ++ t
  | None => line ++ post = []
  end.
Proof.
  intros bc off line post HL HC. destruct (first_lf post) as [H|(x & r & -> & H)].
  - assert (H2 : ~ In 10%N (line ++ post)) by (rewrite in_app_iff; tauto).
    rewrite split_lf_last by auto. cbn [lines_at].
    destruct (line ++ post) as [|c l0] eqn:E; [reflexivity|]. rewrite <- E. cbn [nth_error]. split; auto.
    destruct bc; [|eauto]. apply strip_cr_keep. intros -> C. apply (HC C).
  - rewrite app_assoc. rewrite lines_at_piece by (rewrite in_app_iff; tauto). cbn [nth_error].
    split; auto. apply strip_cr_keep. intros -> C. apply (HC C). reflexivity.
Qed.

Theorem pos_exact : forall bc pre post p, position_after pre p -> not_after_cr pre post ->
  pos_to_idx bc (pre ++ post) p = byte_len pre.
Proof.
  intros bc pre post p (line & [HN [->|(before & ->)]] & ->) HC; unfold pos_to_idx, str_lines; cbn [p_line p_char].
  - rewrite line_feeds_none by auto. pose proof (line_here bc 0 line post HN HC) as H.
    destruct (nth_error _ 0) as [[o l]|].
    + destruct H as [-> (t & ->)]. now rewrite linech_hit.
    + apply app_eq_nil in H as [-> ->]. reflexivity.
  - rewrite <- app_assoc. cbn [app]. rewrite line_feeds_app, line_feeds_lf, (line_feeds_none line) by auto.
    replace (line_feeds before + 1) with (line_feeds before + 1 + 0) by lia.
    rewrite (lines_skip _ before (Nat.le_refl _)).
    assert (HC' : not_after_cr line post).
    { intros (a & ->). apply HC. exists (before ++ 10%N :: a). rewrite <- app_assoc. reflexivity. }
    pose proof (line_here bc (0 + byte_len before + 1) line post HN HC') as H.
    destruct (nth_error _ 0) as [[o l]|].
    + destruct H as [-> (t & ->)]. rewrite linech_hit, byte_len_app, byte_len_cons. change (len_utf8 10) with 1. lia.
    + apply app_eq_nil in H as [-> ->]. reflexivity.
Qed.

Lemma lines_at_place : forall bc ps off n o l, nth_error (lines_at bc off ps) n = Some (o, l) ->
  exists before after, join_lf ps = before ++ l ++ after /\ o = off + byte_len before.
Proof.
  intros bc. induction ps as [|p ps IH]; intros off n o l H.
  - destruct n; discriminate.
  - destruct ps as [|q ps].
    + cbn [lines_at] in H. destruct p as [|c p]; [destruct n; discriminate|].
      destruct n as [|n]; [|destruct n; discriminate]. cbn [nth_error] in H. injection H as <- <-.
      destruct bc.
      * destruct (strip_cr_prefix (c :: p)) as [t Ht]. exists [], t. cbn [join_lf]. split; [exact Ht|cbn; lia].
      * exists [], []. cbn. rewrite app_nil_r. split; auto.
    + rewrite lines_at_cons in H. change (join_lf (p :: q :: ps)) with (p ++ 10%N :: join_lf (q :: ps)).
      destruct n as [|n]; cbn [nth_error] in H.
      * injection H as <- <-. destruct (strip_cr_prefix p) as [t Ht]. exists [], (t ++ 10%N :: join_lf (q :: ps)).
        cbn [app]. rewrite Ht at 1. rewrite <- app_assoc. split; auto.
      * apply IH in H as (b & a & E & ->). exists (p ++ 10%N :: b), a. rewrite E, <- app_assoc. split; auto.
        rewrite byte_len_app, byte_len_cons. change (len_utf8 10) with 1. lia.
Qed.

Theorem pos_boundary : forall bc s p, exists x y, s = x ++ y /\ pos_to_idx bc s p = byte_len x.
Proof.
  intros bc s p. unfold pos_to_idx, str_lines. destruct (nth_error _ _) as [[o l]|] eqn:E.
  - apply lines_at_place in E as (b & a & E & ->). rewrite join_split in E.
    destruct (linech_boundary l (p_char p)) as (l1 & l2 & -> & ->).
    exists (b ++ l1), (l2 ++ a). rewrite E, byte_len_app, <- !app_assoc. split; auto.
  - exists s, []. now rewrite app_nil_r.
Qed.

Theorem edit_exact : forall bc pre mid post p q new,
  position_after pre p -> position_after (pre ++ mid) q ->
  not_after_cr pre (mid ++ post) -> not_after_cr (pre ++ mid) post ->
  apply_change bc (Change (Some (p, q)) new) (pre ++ mid ++ post) = Ok (pre ++ new ++ post).
Proof.
  intros bc pre mid post p q new Hp Hq H1 H2. unfold apply_change. cbn [ch_range ch_text].
  rewrite (pos_exact bc pre (mid ++ post) p Hp H1).
  rewrite (app_assoc pre mid post), (pos_exact bc (pre ++ mid) post q Hq H2). unfold replace_range.
  rewrite drop_bytes_app. rewrite <- app_assoc, take_bytes_app.
  rewrite byte_len_app. destruct (Nat.leb_spec (byte_len pre) (byte_len pre + byte_len mid)); [reflexivity|lia].
Qed.

Theorem whole_exact : forall bc new s, apply_change bc (Change None new) s = Ok new.
Proof.
  intros. unfold apply_change, replace_range. cbn [ch_range ch_text].
  pose proof (drop_bytes_app s []) as D. rewrite app_nil_r in D.
  replace (take_bytes 0 s) with (Some (@nil N)) by (destruct s; reflexivity). rewrite D. cbn. now rewrite app_nil_r.
Qed.

(** Any change within one character boundary range either applies or is a reversed range. *)
Theorem change_panics : forall bc p q new s, apply_change bc (Change (Some (p, q)) new) s = Panic <->
  pos_to_idx bc s q < pos_to_idx bc s p.
Proof.
  intros bc p q new s. unfold apply_change, replace_range. cbn [ch_range ch_text].
  destruct (pos_boundary bc s p) as (x & y & E & Ep). destruct (pos_boundary bc s q) as (x' & y' & E' & Eq).
  rewrite Ep, Eq. rewrite E at 1. rewrite take_bytes_app. rewrite E'. rewrite drop_bytes_app.
  destruct (Nat.leb_spec (byte_len x) (byte_len x')); split; intros; try discriminate; auto; lia.
Qed.

(** ** Versions *)

Lemma in_turn_app : forall bc a b t, in_turn bc (a ++ b) t = (let? t := in_turn bc a t in in_turn bc b t).
Proof. induction a as [|c a IH]; intros b t; [reflexivity|]. cbn [app in_turn]. destruct (apply_change bc c t); cbn [rbind]; auto. Qed.
Lemma apply_changes_turn : forall bc cs t, apply_changes bc cs t = in_turn bc cs t.
Proof. induction cs as [|c cs IH]; intros t; [reflexivity|]. cbn [apply_changes in_turn]. destruct (apply_change bc c t); cbn [rbind]; auto. Qed.
Lemma apply_all_cons : forall bc c a t, apply_all bc (c :: a) t = (let? t := apply_changes bc c t in apply_all bc a t).
Proof. intros. unfold apply_all. cbn [concat]. rewrite in_turn_app. rewrite (apply_changes_turn bc c t). reflexivity. Qed.
Lemma apply_all_app : forall bc a b t, apply_all bc (a ++ b) t = (let? t := apply_all bc a t in apply_all bc b t).
Proof. intros. unfold apply_all. rewrite concat_app. apply in_turn_app. Qed.

Lemma insert_pending_in : forall d l x, In x (insert_pending d l) <-> x = d \/ In x l.
Proof.
  induction l as [|p l IH]; intros x; cbn [insert_pending]; [cbn; intuition|].
  destruct (fst d <=? fst p)%Z; cbn; [intuition|]. rewrite IH. intuition.
Qed.

Lemma insert_pending_sorted : forall d l, StronglySorted vle l -> (forall x, In x l -> fst x <> fst d) ->
  StronglySorted vle (insert_pending d l).
Proof.
  induction l as [|p l IH]; intros HS HN; cbn [insert_pending].
  - repeat constructor.
  - inversion HS; subst. destruct (Z.leb_spec (fst d) (fst p)) as [L|L].
    + assert (fst p <> fst d) by (apply HN; now left). constructor; auto. constructor; [unfold vle; lia|].
      eapply Forall_impl; [|exact H2]. unfold vle. intros. lia.
    + constructor; [apply IH; auto; intros; apply HN; now right|].
      apply Forall_forall. intros x Hx. apply insert_pending_in in Hx as [->|Hx]; [exact L|].
      rewrite Forall_forall in H2. now apply H2.
Qed.

Lemma i32_wrap_id : forall z, (i32_min <= z <= i32_max)%Z -> i32_wrap z = z.
Proof. intros z H. unfold i32_wrap, i32_min, i32_max in *. rewrite Z.mod_small; lia. Qed.

Lemma apply_pending_spec : forall bc pend t v, (i32_min <= v)%Z ->
  StronglySorted vle pend -> (forall d, In d pend -> (v < fst d <= i32_max)%Z) ->
  exists n, exists run rest, pend = run ++ rest /\ length run = n /\
    map fst run = map (fun i => v + 1 + Z.of_nat i)%Z (seq 0 n) /\
    (match rest with [] => True | d :: _ => (v + Z.of_nat n + 1 < fst d)%Z end) /\
    apply_pending bc pend t v =
      (let? t := apply_all bc (map snd run) t in Ok (File t (v + Z.of_nat n) rest)).
Proof.
  intros bc. induction pend as [|[w cs] pend IH]; intros t v HV HS HB.
  - exists 0, [], []. cbn. rewrite Z.add_0_r. auto.
  - cbn [apply_pending]. pose proof (HB _ (or_introl eq_refl)) as Hw. cbn in Hw.
    destruct (Z.ltb_spec w v); [lia|]. inversion HS; subst.
    destruct (Z.ltb_spec (i32_wrap (v + 1)) w) as [L|L].
    + rewrite i32_wrap_id in L by (unfold i32_min, i32_max in *; lia).
      exists 0, [], ((w, cs) :: pend). cbn. rewrite Z.add_0_r. split; auto.
    + rewrite i32_wrap_id in L by (unfold i32_min, i32_max in *; lia).
      assert (w = v + 1)%Z by lia. subst w.
      assert (HB' : forall d, In d pend -> (v + 1 < fst d <= i32_max)%Z).
      { intros d Hd. rewrite Forall_forall in H3. specialize (H3 d Hd). unfold vle in H3. cbn in H3.
        specialize (HB d (or_intror Hd)). lia. }
      destruct (apply_changes bc cs t) as [t1|e|] eqn:E1.
      * cbn [rbind]. destruct (IH t1 (v + 1)%Z) as (n & run & rest & -> & L1 & M & R & E); auto; [lia|].
        exists (S n), ((v + 1, cs)%Z :: run), rest. split; [reflexivity|]. split; [cbn; lia|].
        split. { cbn. rewrite M. f_equal; [lia|]. rewrite <- seq_shift, map_map. apply map_ext. intros; lia. }
        split. { destruct rest; auto. lia. }
        rewrite E. cbn [map snd]. rewrite apply_all_cons, E1. cbn [rbind].
        destruct (apply_all bc (map snd run) t1); cbn; auto. do 2 f_equal. lia.
      * cbn [rbind]. destruct (IH t (v + 1)%Z) as (n & run & rest & -> & L1 & M & R & E); auto; [lia|].
        exists (S n), ((v + 1, cs)%Z :: run), rest. split; [reflexivity|]. split; [cbn; lia|].
        split. { cbn. rewrite M. f_equal; [lia|]. rewrite <- seq_shift, map_map. apply map_ext. intros; lia. }
        split. { destruct rest; auto. lia. } cbn [map snd]. now rewrite apply_all_cons, E1.
      * cbn [rbind]. destruct (IH t (v + 1)%Z) as (n & run & rest & -> & L1 & M & R & E); auto; [lia|].
        exists (S n), ((v + 1, cs)%Z :: run), rest. split; [reflexivity|]. split; [cbn; lia|].
        split. { cbn. rewrite M. f_equal; [lia|]. rewrite <- seq_shift, map_map. apply map_ext. intros; lia. }
        split. { destruct rest; auto. lia. } cbn [map snd]. now rewrite apply_all_cons, E1.
Qed.

Lemma delivered_run_mono : forall v css ds d, delivered_run v css ds -> delivered_run v css (ds ++ [d]).
Proof. intros v css ds d H i cs Hi. apply in_or_app. left. eauto. Qed.

Lemma run_delivered : forall (run : list (Z * list change)) v, map fst run = map (fun i => v + 1 + Z.of_nat i)%Z (seq 0 (length run)) ->
  forall i cs, nth_error (map snd run) i = Some cs -> In ((v + 1 + Z.of_nat i)%Z, cs) run.
Proof.
  intros run v H i cs Hi. rewrite nth_error_map in Hi. destruct (nth_error run i) as [[w c]|] eqn:E; [|discriminate].
  cbn in Hi. injection Hi as <-. assert (w = v + 1 + Z.of_nat i)%Z as ->; [|now apply nth_error_In in E].
  assert (A : nth_error (map fst run) i = Some w) by (rewrite nth_error_map, E; reflexivity).
  rewrite H in A. rewrite nth_error_map in A. assert (i < length run) by (apply nth_error_Some; congruence).
  rewrite (@nth_error_nth' nat (seq 0 (length run)) i 0) in A by now rewrite seq_length. rewrite seq_nth in A by auto. cbn in A. injection A as <-. lia.
Qed.

Lemma add_changes_spec : forall bc t0 v0 ds d f, (i32_min <= v0)%Z ->
  NoDup (map fst (ds ++ [d])) -> (forall x, In x (ds ++ [d]) -> (v0 < fst x <= i32_max)%Z) ->
  state_after bc t0 v0 ds f ->
  match add_changes bc d f with
  | Ok f' => state_after bc t0 v0 (ds ++ [d]) f'
  | Err e => exists css, delivered_run v0 css (ds ++ [d]) /\ apply_all bc css t0 = Err e
  | Panic => exists css, delivered_run v0 css (ds ++ [d]) /\ apply_all bc css t0 = Panic
  end.
Proof.
  intros bc t0 v0 ds d f HV HN HB (css & HR & HF & HA & [HS HP] & HX).
  assert (HVf : (v0 <= f_version f)%Z) by lia.
  assert (Hd : (f_version f < fst d)%Z).
  { destruct (Z_lt_le_dec (f_version f) (fst d)); auto. exfalso.
    assert (HBd : (v0 < fst d)%Z) by (apply HB; apply in_or_app; right; now left).
    set (i := Z.to_nat (fst d - v0 - 1)). assert (Hi : i < length css) by lia.
    destruct (nth_error css i) as [cs|] eqn:E; [|apply nth_error_None in E; lia].
    specialize (HR i cs E). rewrite map_app in HN. cbn in HN.
    apply NoDup_remove_2 in HN. rewrite app_nil_r in HN. apply HN.
    replace (fst d) with (fst ((v0 + 1 + Z.of_nat i)%Z, cs)) by (cbn; lia). now apply in_map. }
  assert (HND : forall x, In x (f_pending f) -> fst x <> fst d).
  { intros x Hx C. apply HP in Hx as [Hx _]. rewrite map_app in HN. cbn in HN. apply NoDup_remove_2 in HN.
    rewrite app_nil_r in HN. apply HN. rewrite <- C. now apply in_map. }
  unfold add_changes.
  destruct (apply_pending_spec bc (insert_pending d (f_pending f)) (f_text f) (f_version f))
    as (n & run & rest & E & L & M & R & EA); [lia|now apply insert_pending_sorted| |].
  { intros x Hx. apply insert_pending_in in Hx as [->|Hx].
    - split; auto. apply HB. apply in_or_app. right. now left.
    - apply HP in Hx as [Hx Hx2]. split; auto. apply HB. apply in_or_app. now left. }
  assert (RD : delivered_run v0 (css ++ map snd run) (ds ++ [d])).
  { intros i cs Hi. destruct (Nat.lt_ge_cases i (length css)) as [H|H].
    - rewrite nth_error_app1 in Hi by auto. apply in_or_app. left. auto.
    - rewrite nth_error_app2 in Hi by auto. rewrite <- L in M.
      pose proof (run_delivered run (f_version f) M _ _ Hi) as HI.
      replace (v0 + 1 + Z.of_nat i)%Z with (f_version f + 1 + Z.of_nat (i - length css))%Z by lia.
      assert (HI2 : In ((f_version f + 1 + Z.of_nat (i - length css))%Z, cs) (insert_pending d (f_pending f)))
        by (rewrite E; apply in_or_app; auto).
      apply insert_pending_in in HI2 as [<-|HI2]; apply in_or_app; [right; now left|left].
      now apply HP in HI2. }
  assert (AA : apply_all bc (css ++ map snd run) t0 = apply_all bc (map snd run) (f_text f)).
  { rewrite apply_all_app, HA. reflexivity. }
  rewrite EA. destruct (apply_all bc (map snd run) (f_text f)) as [t1|e|] eqn:E1; cbn [rbind].
  - exists (css ++ map snd run). split; auto. cbn [f_version f_text f_pending].
    assert (SS : StronglySorted vle (run ++ rest)) by (rewrite <- E; now apply insert_pending_sorted).
    assert (RB : forall x, In x run -> (fst x <= f_version f + Z.of_nat n)%Z).
    { intros x Hx. apply (in_map fst) in Hx. rewrite M in Hx. apply in_map_iff in Hx as (i & <- & Hi).
      apply in_seq in Hi. lia. }
    assert (SR : StronglySorted vle rest).
    { clear - SS. induction run; cbn in SS; auto. inversion SS; auto. }
    assert (RR : forall x, In x rest -> (f_version f + Z.of_nat n + 1 < fst x)%Z).
    { destruct rest as [|r0 rest']; [intros x []|]. intros x [<-|Hx]; auto.
      inversion SR; subst. rewrite Forall_forall in H2. specialize (H2 x Hx). unfold vle in H2. lia. }
    split; [rewrite app_length, map_length; lia|]. split; [exact AA|]. split.
    + split; [exact SR|]. intros x. split.
      * intros Hx. split; [|specialize (RR x Hx); lia].
        assert (HI : In x (insert_pending d (f_pending f))) by (rewrite E; apply in_or_app; auto).
        apply insert_pending_in in HI as [->|HI]; apply in_or_app; [right; now left|left; now apply HP].
      * intros [Hx HL]. assert (HI : In x (run ++ rest)).
        { rewrite <- E. apply insert_pending_in. apply in_app_or in Hx as [Hx|[<-|[]]]; auto. right. apply HP. split; auto. lia. }
        apply in_app_or in HI as [HI|HI]; auto. specialize (RB x HI). lia.
    + intros C. apply in_map_iff in C as (x & Ex & Hx).
      assert (HI : In x (run ++ rest)).
      { rewrite <- E. apply insert_pending_in. apply in_app_or in Hx as [Hx|[<-|[]]]; auto. right. apply HP. split; auto. lia. }
      apply in_app_or in HI as [HI|HI]; [specialize (RB x HI); lia|specialize (RR x HI); lia].
  - exists (css ++ map snd run). rewrite AA. auto.
  - exists (css ++ map snd run). rewrite AA. auto.
Qed.

Lemma NoDup_app_left : forall A (a b : list A), NoDup (a ++ b) -> NoDup a.
Proof.
  induction a as [|x a IH]; intros b H; [constructor|]. inversion H; subst. constructor; [|eauto].
  intros C. apply H2. apply in_or_app. auto.
Qed.

Lemma delivered_run_incl : forall v css ds ds', delivered_run v css ds -> incl ds ds' -> delivered_run v css ds'.
Proof. intros v css ds ds' H HI i cs Hi. apply HI. eauto. Qed.

Lemma deliver_spec : forall bc t0 v0 ds2 ds1 f, (i32_min <= v0)%Z ->
  NoDup (map fst (ds1 ++ ds2)) -> (forall x, In x (ds1 ++ ds2) -> (v0 < fst x <= i32_max)%Z) ->
  state_after bc t0 v0 ds1 f ->
  match deliver bc ds2 f with
  | Ok f' => state_after bc t0 v0 (ds1 ++ ds2) f'
  | Err e => exists css, delivered_run v0 css (ds1 ++ ds2) /\ apply_all bc css t0 = Err e
  | Panic => exists css, delivered_run v0 css (ds1 ++ ds2) /\ apply_all bc css t0 = Panic
  end.
Proof.
  intros bc t0 v0. induction ds2 as [|d ds2 IH]; intros ds1 f HV HN HB HS; cbn [deliver].
  - now rewrite app_nil_r.
  - replace (ds1 ++ d :: ds2) with ((ds1 ++ [d]) ++ ds2) in * by now rewrite <- app_assoc.
    pose proof (add_changes_spec bc t0 v0 ds1 d f HV) as H.
    assert (N1 : NoDup (map fst (ds1 ++ [d]))) by (rewrite map_app in HN; now apply NoDup_app_left in HN).
    specialize (H N1). specialize (H ltac:(intros x Hx; apply HB; apply in_or_app; auto) HS).
    destruct (add_changes bc d f) as [f'|e|]; cbn [rbind].
    + apply IH; auto.
    + destruct H as (css & H & E). exists css. split; auto. eapply delivered_run_incl; eauto. intros x Hx. apply in_or_app; auto.
    + destruct H as (css & H & E). exists css. split; auto. eapply delivered_run_incl; eauto. intros x Hx. apply in_or_app; auto.
Qed.

Lemma state_new : forall bc t v, state_after bc t v [] (file_new t v).
Proof.
  intros bc t v. exists []. split; [intros [|i] cs H; discriminate|]. cbn. rewrite Z.add_0_r. split; auto. split; auto.
  split; auto. split; [constructor|]. cbn. tauto.
Qed.

Theorem deliver_from_new : forall bc t v ds, (i32_min <= v)%Z -> NoDup (map fst ds) ->
  (forall x, In x ds -> (v < fst x <= i32_max)%Z) ->
  match deliver bc ds (file_new t v) with
  | Ok f => state_after bc t v ds f
  | Err e => exists css, delivered_run v css ds /\ apply_all bc css t = Err e
  | Panic => exists css, delivered_run v css ds /\ apply_all bc css t = Panic
  end.
Proof. intros bc t v ds HV HN HB. apply (deliver_spec bc t v ds []); auto. apply state_new. Qed.

(** Complete deliveries. *)
Lemma numbered_in : forall css v w cs, In (w, cs) (numbered v css) <->
  exists i, nth_error css i = Some cs /\ w = (v + 1 + Z.of_nat i)%Z.
Proof.
  induction css as [|c css IH]; intros v w cs; cbn [numbered].
  - split; [intros []|intros ([|i] & H & _); discriminate].
  - split.
    + intros [[= <- <-]|H]; [exists 0; cbn; split; auto; lia|].
      apply IH in H as (i & H & ->). exists (S i). split; auto. lia.
    + intros ([|i] & H & ->); cbn in H.
      * left. injection H as ->. f_equal. cbn. lia.
      * right. apply IH. exists i. split; auto. lia.
Qed.

Lemma numbered_versions : forall css v, map fst (numbered v css) = map (fun i => v + 1 + Z.of_nat i)%Z (seq 0 (length css)).
Proof.
  induction css as [|c css IH]; intros v; cbn; auto. rewrite IH. f_equal; [lia|].
  rewrite <- seq_shift, map_map. apply map_ext. intros; lia.
Qed.

Lemma run_prefix : forall v css all, delivered_run v css (numbered v all) -> exists rest, all = css ++ rest.
Proof.
  intros v css all H. assert (HP : forall i cs, nth_error css i = Some cs -> nth_error all i = Some cs).
  { intros i cs Hi. specialize (H i cs Hi). apply numbered_in in H as (j & Hj & E). replace i with j by lia. auto. }
  clear H. revert all HP. induction css as [|c css IH]; intros all HP; [exists all; auto|].
  pose proof (HP 0 c eq_refl) as H0. destruct all as [|a all]; [discriminate|]. cbn in H0. injection H0 as ->.
  destruct (IH all) as [rest ->]; [intros i cs Hi; apply (HP (S i)); auto|]. exists rest. reflexivity.
Qed.

Theorem deliver_any_order : forall bc t v css ds, (i32_min <= v)%Z -> (v + Z.of_nat (length css) <= i32_max)%Z ->
  Permutation ds (numbered v css) ->
  deliver bc ds (file_new t v) =
    (let? t := apply_all bc css t in Ok (File t (v + Z.of_nat (length css)) [])).
Proof.
  intros bc t v css ds HV HM HP.
  assert (HN : NoDup (map fst ds)).
  { eapply Permutation_NoDup; [symmetry; apply Permutation_map, HP|]. rewrite numbered_versions.
    apply FinFun.Injective_map_NoDup; [intros a b; lia|apply seq_NoDup]. }
  assert (HB : forall x, In x ds -> (v < fst x <= i32_max)%Z).
  { intros [w cs] Hx. eapply Permutation_in in Hx; [|exact HP]. apply numbered_in in Hx as (i & Hi & ->).
    assert (i < length css) by (apply nth_error_Some; congruence). cbn. lia. }
  pose proof (deliver_from_new bc t v ds HV HN HB) as H.
  assert (RI : forall c, delivered_run v c ds -> exists rest, css = c ++ rest).
  { intros c Hc. apply (run_prefix v). eapply delivered_run_incl; eauto. intros x. apply Permutation_in. auto. }
  destruct (deliver bc ds (file_new t v)) as [[ft fv fp]|e|].
  - destruct H as (c & HR & HF & HA & [HS HPd] & HX). cbn in *.
    destruct (RI c HR) as [[|r rest] ->].
    + rewrite app_nil_r. rewrite HA. cbn. rewrite HF. do 2 f_equal.
      destruct fp as [|[w cs] fp]; auto. exfalso. destruct (proj1 (HPd (w, cs)) (or_introl eq_refl)) as [Hi Hw].
      cbn in Hw. eapply Permutation_in in Hi; [|exact HP]. rewrite app_nil_r in Hi.
      apply numbered_in in Hi as (i & Hi & ->). assert (i < length c) by (apply nth_error_Some; congruence). lia.
    + exfalso. apply HX. apply in_map_iff. exists ((v + 1 + Z.of_nat (length c))%Z, r). cbn. split; [lia|].
      eapply Permutation_in; [symmetry; exact HP|]. apply numbered_in. exists (length c). split; auto.
      rewrite nth_error_app2, Nat.sub_diag by auto. reflexivity.
  - destruct H as (c & HR & HA). destruct (RI c HR) as [rest ->]. rewrite apply_all_app, HA. reflexivity.
  - destruct H as (c & HR & HA). destruct (RI c HR) as [rest ->]. rewrite apply_all_app, HA. reflexivity.
Qed.

(** A change older than the document is dropped. *)
Theorem old_dropped : forall bc d f, (fst d < f_version f)%Z -> f_pending f = [] ->
  add_changes bc d f = Ok f.
Proof.
  intros bc [w cs] [t v p] H Hp. cbn in *. subst p. unfold add_changes. cbn.
  destruct (Z.ltb_spec w v); [reflexivity|lia].
Qed.
