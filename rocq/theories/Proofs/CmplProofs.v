From Coq Require Import List Arith Lia NArith Bool.
From Verif Require Import Model.Base Model.Utf Model.Shell Spec.ShellSpec Proofs.UtfLemmas Proofs.EditProofs.
Import ListNotations.

Lemma loop_prefix : forall x n p before rest, n + byte_len x <= before ->
  exists front word, x = front ++ word /\ Forall (fun c => splits_word c = false) word /\
    match rev front with [] => True | d :: _ => splits_word d = true end /\
    word_start_loop before (char_indices n x ++ rest) p =
    word_start_loop before rest (match front with [] => p | _ => n + byte_len front end).
Proof.
  induction x as [|c x IH]; intros n p before rest H.
  - exists [], []. repeat split; auto.
  - cbn [byte_len] in H. cbn [char_indices app word_start_loop].
    rewrite (proj2 (Nat.ltb_ge _ _)) by lia.
    destruct (IH (n + len_utf8 c) (if splits_word c then n + len_utf8 c else p) before rest ltac:(lia))
      as (f & w & -> & HW & HF & E).
    rewrite E. destruct f as [|d f].
    + destruct (splits_word c) eqn:EC.
      * exists [c], w. repeat split; auto. cbn. now rewrite Nat.add_0_r.
      * exists [], (c :: w). repeat split; auto.
    + exists (c :: d :: f), w. repeat split; auto.
      * cbn [rev] in HF |- *. destruct ((rev f ++ [d]) ++ [c]) as [|e l] eqn:Er; auto.
        destruct (rev f ++ [d]) as [|e' l'] eqn:Er'; [destruct (rev f); discriminate|].
        cbn in Er. injection Er as <- _. exact HF.
      * f_equal. cbn [byte_len]. lia.
Qed.

Lemma word_start_spec : forall x y, exists front word,
  x = front ++ word /\ typed_word splits_word (x, y) word /\
  word_start (x ++ y) (byte_len x) = byte_len front.
Proof.
  intros x y. unfold word_start. rewrite char_indices_app.
  destruct (loop_prefix x 0 0 (byte_len x) (char_indices (0 + byte_len x) y)) as (f & w & E & HW & HF & EL); [lia|].
  rewrite EL. clear EL. set (p := match f with [] => 0 | _ => 0 + byte_len f end).
  assert (Hp : p = byte_len f) by (unfold p; destruct f; reflexivity). clearbody p. subst p.
  assert (Hle : byte_len f <= byte_len x) by (rewrite E, byte_len_app; lia).
  destruct y as [|c y]; cbn [char_indices word_start_loop].
  - exists f, w. split; auto. split; [|lia]. exists f. cbn [fst snd]. auto.
  - rewrite (proj2 (Nat.ltb_ge _ _)) by lia.
    assert (Hrest : forall q, word_start_loop (byte_len x) (char_indices (0 + byte_len x + len_utf8 c) y) q = q).
    { intros q. destruct y as [|d y]; cbn [char_indices word_start_loop]; auto.
      pose proof (len_utf8_pos c). rewrite (proj2 (Nat.ltb_lt _ _)) by lia. reflexivity. }
    rewrite Hrest. destruct (splits_word c) eqn:EC.
    + exists x, []. rewrite app_nil_r. split; auto. split; [|lia].
      exists x. cbn [fst snd]. rewrite app_nil_r, EC. auto.
    + exists f, w. split; auto. split; [|lia]. exists f. cbn [fst snd]. rewrite EC. auto.
Qed.

(** A request never panics and remembers exactly the word before the cursor. *)
Theorem request_correct : forall b c x y, shows b (x, y) ->
  exists c' rq front word, completions_request b c = Ok (c', rq) /\
    x = front ++ word /\ typed_word splits_word (x, y) word /\
    in_step c' b front word y /\ c_replace c' = word /\ c_items c' = [] /\ c_highlighted c' = None /\
    c_changeset c' = rq_changeset rq /\ rq_changeset rq = ((c_changeset c + 1) mod 2 ^ 128)%N /\
    rq_input rq = x ++ y /\ rq_cursor rq = byte_len x /\ rq_word rq = byte_len front.
Proof.
  intros b c x y H. destruct (shows_split _ _ H) as (HL & HF & HS). cbn in HF, HS.
  destruct H as [H1 H2]. cbn in H1, H2.
  destruct (word_start_spec x y) as (front & word & E & HT & HW).
  unfold completions_request, input_buf_pos. rewrite (proj2 (Nat.leb_le _ _) HL), HF. cbn [rbind].
  rewrite H1, HW. replace (slice_bytes (byte_len front) (byte_len x) (x ++ y)) with (Ok word).
  2:{ rewrite E, byte_len_app, <- app_assoc. symmetry. apply slice_bytes_app. }
  cbn [rbind]. eexists _, _, front, word. split; [reflexivity|].
  split; [exact E|]. split; [exact HT|].
  assert (HX : length x = length front + length word) by (rewrite E, app_length; reflexivity).
  split; [|repeat split; auto].
  split; [now rewrite H1, E, <- app_assoc|]. split; [cbn; lia|]. split; [reflexivity|exact HL].
Qed.

Lemma splits_separator c : splits_word c = separator c.
Proof.
  unfold splits_word. cbn [existsb]. destruct (N.ltb c 93) eqn:L.
  - apply N.ltb_lt in L. revert c L.
    assert (G : forall n, n < 93 -> existsb (N.eqb (N.of_nat n)) [32; 9; 13; 10; 46; 47; 92]%N = separator (N.of_nat n)).
    { intros n Hn. do 93 (destruct n as [|n]; [reflexivity|]). lia. }
    intros c L. specialize (G (N.to_nat c) ltac:(lia)). rewrite N2Nat.id in G. exact G.
  - apply N.ltb_ge in L.
    assert (S : separator c = false).
    { unfold separator. destruct c as [|p]; [reflexivity|]. do 7 (try (destruct p as [p|p|]); try reflexivity); lia. }
    rewrite S. repeat match goal with |- context[N.eqb c ?k] => replace (N.eqb c k) with false by (symmetry; apply N.eqb_neq; lia) end.
    reflexivity.
Qed.
Lemma typed_word_ext f g z w : (forall c, f c = g c) -> typed_word f z w -> typed_word g z w.
Proof.
  intro E. assert (Hf : forall l, Forall (fun c => f c = false) l -> Forall (fun c => g c = false) l).
  { intros l. apply Forall_impl. intros a <-. auto. }
  unfold typed_word. intros (front & E1 & E2 & E3). exists front. split; [exact E1|]. split; [auto|].
  destruct (snd z) as [|c y].
  - destruct (rev front); auto. rewrite <- E. auto.
  - rewrite <- E. destruct (f c); auto. destruct (rev front); auto. rewrite <- E. auto.
Qed.
Theorem request_separated : forall b c x y, shows b (x, y) ->
  exists c' rq front word, completions_request b c = Ok (c', rq) /\
    x = front ++ word /\ typed_word separator (x, y) word /\
    in_step c' b front word y /\ c_replace c' = word /\ c_items c' = [] /\ c_highlighted c' = None /\
    c_changeset c' = rq_changeset rq /\ rq_changeset rq = ((c_changeset c + 1) mod 2 ^ 128)%N /\
    rq_input rq = x ++ y /\ rq_cursor rq = byte_len x /\ rq_word rq = byte_len front.
Proof.
  intros b c x y H. destruct (request_correct b c x y H) as (c' & rq & front & word & E1 & E2 & E3 & R).
  exists c', rq, front, word. split; [exact E1|]. split; [exact E2|]. split; [|exact R].
  eapply typed_word_ext; [|exact E3]. apply splits_separator.
Qed.

Lemma delete_n_ok : forall n b x y, shows b (x, y) -> n <= length y ->
  exists b', delete_n n b = Ok b' /\ shows b' (x, skipn n y).
Proof.
  induction n as [|n IH]; intros b x y H Hn; cbn [delete_n].
  - exists b. auto.
  - destruct (delete_ok b x y H) as (b1 & E1 & H1). rewrite E1. cbn [rbind].
    destruct y as [|c y]; cbn [length tl skipn] in *; [lia|]. apply IH; auto. lia.
Qed.

(** One step through the list. *)
Lemma mv_step : forall alnum (next : bool) t l m r, in_step (t_completions t) (t_input t) l m r ->
  let c' := fst (if next then highlight_next (t_completions t) else highlight_prev (t_completions t)) in
  exists b', mv_completions alnum next t = Ok (set_completions c' (set_input b' t)) /\
    shows b' (l ++ shown c', r) /\ in_step c' b' l (shown c') r.
Proof.
  intros alnum next t l m r (Hb & Hs & Hi & Hp) c'. unfold mv_completions.
  assert (HC : (if next then highlight_next (t_completions t) else highlight_prev (t_completions t))
               = (c', (length m, shown c')) /\ c_start c' = length l /\ c_ins_len c' = length (shown c')).
  { unfold c'. rewrite <- Hi. destruct next; cbn; auto. }
  destruct HC as (-> & HS & HL).
  rewrite Hs. unfold input_move_start, input_move_right. cbn [ib_buf ib_pos].
  rewrite (proj2 (Nat.leb_le _ _)) by lia. cbn [rbind mv_magnitude].
  assert (H0 : shows (InputBuffer (ib_buf (t_input t)) (Nat.min (0 + length l) (length (ib_buf (t_input t))))) (l, m ++ r)).
  { split; cbn; auto. rewrite Hb, !app_length. lia. }
  destruct (delete_n_ok (length m) _ _ _ H0) as (b1 & E1 & H1); [rewrite app_length; lia|].
  rewrite E1. cbn [rbind]. rewrite skipn_app_exact in H1.
  destruct (insert_str_ok (shown c') b1 l r H1) as (b2 & E2 & H2). rewrite E2. cbn [rbind].
  exists b2. split; [reflexivity|]. split; auto. destruct H2 as [A B]. cbn in A, B.
  repeat split; auto.
  - now rewrite A, <- app_assoc.
  - rewrite B, A, !app_length. lia.
Qed.

Lemma move_keeps_text : forall wc (lf : bool) m x y z,
  ideal_edit wc (if lf then MoveLeft m else MoveRight m) (x, y) z -> fst z ++ snd z = x ++ y.
Proof. intros wc lf m x y z H. destruct lf; inversion H; subst; cbn; now rewrite <- !app_assoc. Qed.

(** Whatever is done besides typing, only the word changes. *)
Theorem cmpl_steps_frame : forall alnum ops t l m r, in_step (t_completions t) (t_input t) l m r ->
  exists t' m', cmpl_steps alnum ops t = Ok t' /\ in_step (t_completions t') (t_input t') l m' r /\
    c_replace (t_completions t') = c_replace (t_completions t).
Proof.
  intros alnum. induction ops as [|op ops IH]; intros t l m r H; cbn [cmpl_steps].
  - exists t, m. auto.
  - assert (HS : exists t1 m1, cmpl_step alnum op t = Ok t1 /\ in_step (t_completions t1) (t_input t1) l m1 r /\
                 c_replace (t_completions t1) = c_replace (t_completions t)).
    { destruct op as [| |w lf| |pk]; cbn [cmpl_step].
      - destruct (mv_step alnum true t l m r H) as (b' & E & _ & HI). eexists _, _. split; [exact E|]. split; [exact HI|reflexivity].
      - destruct (mv_step alnum false t l m r H) as (b' & E & _ & HI). eexists _, _. split; [exact E|]. split; [exact HI|reflexivity].
      - unfold mv_cursor. destruct H as (Hb & Hs & Hi & Hp).
        assert (HZ : shows (t_input t) (firstn (ib_pos (t_input t)) (ib_buf (t_input t)), skipn (ib_pos (t_input t)) (ib_buf (t_input t)))).
        { split; cbn; [now rewrite firstn_skipn|]. rewrite firstn_length. lia. }
        set (op := if lf then MoveLeft (if w then Word else Ch 1) else MoveRight (if w then Word else Ch 1)).
        destruct (edit_step_ideal alnum op _ _ HZ) as (b' & z' & E & H' & I).
        assert (HB : ib_buf b' = ib_buf (t_input t)).
        { destruct H' as [-> _]. rewrite (move_keeps_text _ _ _ _ _ _ I). apply firstn_skipn. }
        replace (if lf then input_move_left alnum (if w then Word else Ch 1) (t_input t)
                 else input_move_right alnum (if w then Word else Ch 1) (t_input t)) with (Ok b')
          by (rewrite <- E; unfold op; destruct lf; reflexivity).
        cbn [rbind]. eexists _, m. split; [reflexivity|]. cbn. split; [|reflexivity].
        repeat split; cbn; auto; [congruence|]. destruct H' as [-> ->]. rewrite app_length. lia.
      - eexists _, m. split; [reflexivity|]. split; [exact H|reflexivity].
      - eexists _, m. split; [reflexivity|]. split; [exact H|reflexivity]. }
    destruct HS as (t1 & m1 & E1 & H1 & R1). rewrite E1. cbn [rbind].
    destruct (IH t1 l m1 r H1) as (t2 & m2 & E2 & H2 & R2). exists t2, m2. repeat split; try apply H2; auto. congruence.
Qed.

Lemma cmpl_steps_app : forall alnum a b t, cmpl_steps alnum (a ++ b) t =
  let? t := cmpl_steps alnum a t in cmpl_steps alnum b t.
Proof. intros alnum. induction a as [|op a IH]; intros b t; cbn; auto. destruct (cmpl_step alnum op t); cbn; auto. Qed.

(** Going through the list shows each suggestion in turn and then the typed word again. *)
Theorem cycle_next : forall alnum t l m r, in_step (t_completions t) (t_input t) l m r ->
  c_highlighted (t_completions t) = None -> c_items (t_completions t) <> [] ->
  (forall k s, nth_error (c_items (t_completions t)) k = Some s ->
     exists t', cmpl_steps alnum (repeat COpNext (S k)) t = Ok t' /\ shows (t_input t') (l ++ s, r)) /\
  (exists t', cmpl_steps alnum (repeat COpNext (S (length (c_items (t_completions t))))) t = Ok t' /\
     shows (t_input t') (l ++ c_replace (t_completions t), r) /\
     c_highlighted (t_completions t') = None /\ c_items (t_completions t') = c_items (t_completions t)).
Proof.
  intros alnum t l m r H HN HE. set (items := c_items (t_completions t)) in *.
  assert (K : forall k, k < length items -> exists t', cmpl_steps alnum (repeat COpNext (S k)) t = Ok t' /\
      c_highlighted (t_completions t') = Some k /\ c_items (t_completions t') = items /\
      c_replace (t_completions t') = c_replace (t_completions t) /\
      (forall s, nth_error items k = Some s -> shows (t_input t') (l ++ s, r)) /\
      exists m', in_step (t_completions t') (t_input t') l m' r).
  { induction k as [|k IH]; intros Hk.
    - cbn [repeat cmpl_steps cmpl_step]. destruct (mv_step alnum true t l m r H) as (b' & E & HS & HI).
      rewrite E. cbn [rbind]. eexists. split; [reflexivity|]. cbn [t_completions t_input set_completions set_input].
      split; [cbn; rewrite HN; reflexivity|]. split; [reflexivity|]. split; [reflexivity|]. split; [|eauto].
      intros s Hs. replace s with (shown (fst (highlight_next (t_completions t)))); [exact HS|].
      unfold shown, highlight_next. rewrite HN. cbn [fst replace_with with_highlight c_highlighted c_items].
      fold items. now rewrite Hs.
    - destruct IH as (t1 & E1 & Hh & Hi & Hr & _ & m1 & H1); [lia|].
      replace (repeat COpNext (S (S k))) with (repeat COpNext (S k) ++ [COpNext])
        by (rewrite <- (repeat_cons (S k)); reflexivity).
      rewrite cmpl_steps_app, E1. cbn [rbind cmpl_steps cmpl_step].
      destruct (mv_step alnum true t1 l m1 r H1) as (b' & E & HS & HI).
      rewrite E. cbn [rbind]. eexists. split; [reflexivity|]. cbn [t_completions t_input set_completions set_input].
      assert (EN : Nat.eqb k (length items - 1) = false) by (apply Nat.eqb_neq; lia).
      split; [cbn; rewrite Hh, Hi, EN; f_equal; lia|]. split; [cbn; exact Hi|]. split; [cbn; exact Hr|]. split; [|eauto].
      intros s Hs. replace s with (shown (fst (highlight_next (t_completions t1)))); [exact HS|].
      unfold shown, highlight_next. rewrite Hh, Hi, EN, Nat.add_1_r.
      cbn [fst replace_with with_highlight c_highlighted c_items]. now rewrite Hi, Hs. }
  split.
  - intros k s Hs. destruct (K k) as (t' & E & _ & _ & _ & HS & _).
    { apply nth_error_Some. congruence. }
    exists t'. auto.
  - destruct items as [|i0 items0] eqn:EI; [congruence|]. rewrite <- EI in *.
    destruct (K (length items - 1)) as (t1 & E1 & Hh & Hi & Hr & _ & m1 & H1); [rewrite EI; cbn; lia|].
    replace (S (length items - 1)) with (length items) in E1 by (rewrite EI; cbn; lia).
    replace (repeat COpNext (S (length items))) with (repeat COpNext (length items) ++ [COpNext])
      by (rewrite <- (repeat_cons (length items)); reflexivity).
    rewrite cmpl_steps_app, E1. cbn [rbind cmpl_steps cmpl_step].
    destruct (mv_step alnum true t1 l m1 r H1) as (b' & E & HS & HI).
    rewrite E. cbn [rbind]. eexists. split; [reflexivity|]. cbn [t_completions t_input set_completions set_input].
    split; [|split; cbn; rewrite ?Hh, ?Hi, ?Nat.eqb_refl; auto].
    replace (c_replace (t_completions t)) with (shown (fst (highlight_next (t_completions t1)))); [exact HS|].
    unfold shown; cbn. rewrite Hh, Hi, Nat.eqb_refl. exact Hr.
Qed.

Theorem cycle_prev : forall alnum t l m r, in_step (t_completions t) (t_input t) l m r ->
  c_highlighted (t_completions t) = None -> c_items (t_completions t) <> [] ->
  (forall k s, nth_error (rev (c_items (t_completions t))) k = Some s ->
     exists t', cmpl_steps alnum (repeat COpPrev (S k)) t = Ok t' /\ shows (t_input t') (l ++ s, r)) /\
  (exists t', cmpl_steps alnum (repeat COpPrev (S (length (c_items (t_completions t))))) t = Ok t' /\
     shows (t_input t') (l ++ c_replace (t_completions t), r) /\
     c_highlighted (t_completions t') = None /\ c_items (t_completions t') = c_items (t_completions t)).
Proof.
  intros alnum t l m r H HN HE. set (items := c_items (t_completions t)) in *.
  assert (K : forall k, k < length items -> exists t', cmpl_steps alnum (repeat COpPrev (S k)) t = Ok t' /\
      c_highlighted (t_completions t') = Some (length items - 1 - k) /\ c_items (t_completions t') = items /\
      c_replace (t_completions t') = c_replace (t_completions t) /\
      (forall s, nth_error items (length items - 1 - k) = Some s -> shows (t_input t') (l ++ s, r)) /\
      exists m', in_step (t_completions t') (t_input t') l m' r).
  { induction k as [|k IH]; intros Hk.
    - cbn [repeat cmpl_steps cmpl_step]. destruct (mv_step alnum false t l m r H) as (b' & E & HS & HI).
      rewrite E. cbn [rbind]. eexists. split; [reflexivity|]. cbn [t_completions t_input set_completions set_input].
      rewrite Nat.sub_0_r. split; [cbn; rewrite HN; reflexivity|]. split; [reflexivity|]. split; [reflexivity|]. split; [|eauto].
      intros s Hs. replace s with (shown (fst (highlight_prev (t_completions t)))); [exact HS|].
      unfold shown, highlight_prev. rewrite HN. cbn [fst replace_with with_highlight c_highlighted c_items].
      fold items. now rewrite Hs.
    - destruct IH as (t1 & E1 & Hh & Hi & Hr & _ & m1 & H1); [lia|].
      replace (repeat COpPrev (S (S k))) with (repeat COpPrev (S k) ++ [COpPrev])
        by (rewrite <- (repeat_cons (S k)); reflexivity).
      rewrite cmpl_steps_app, E1. cbn [rbind cmpl_steps cmpl_step].
      destruct (mv_step alnum false t1 l m1 r H1) as (b' & E & HS & HI).
      rewrite E. cbn [rbind]. eexists. split; [reflexivity|]. cbn [t_completions t_input set_completions set_input].
      assert (EH : c_highlighted (fst (highlight_prev (t_completions t1))) = Some (length items - 1 - S k)).
      { cbn. rewrite Hh. destruct (length items - 1 - k) as [|j] eqn:Ej; [lia|]. f_equal. lia. }
      split; [exact EH|]. split; [cbn; exact Hi|]. split; [cbn; exact Hr|]. split; [|eauto].
      intros s Hs. replace s with (shown (fst (highlight_prev (t_completions t1)))); [exact HS|].
      unfold shown. rewrite EH. cbn [c_items c_replace fst highlight_prev replace_with with_highlight]. rewrite Hi, Hs. reflexivity. }
  split.
  - intros k s Hs. assert (Hk : k < length items).
    { rewrite <- rev_length. apply nth_error_Some. fold items in Hs. congruence. }
    destruct (K k Hk) as (t' & E & _ & _ & _ & HS & _). exists t'. split; auto. apply HS.
    rewrite <- Hs. fold items. assert (Hr : k < length (rev items)) by now rewrite rev_length.
    rewrite (nth_error_nth' (rev items) [] Hr), rev_nth by auto.
    replace (length items - 1 - k) with (length items - S k) by lia. apply nth_error_nth'. lia.
  - destruct items as [|i0 items0] eqn:EI; [congruence|]. rewrite <- EI in *.
    destruct (K (length items - 1)) as (t1 & E1 & Hh & Hi & Hr & _ & m1 & H1); [rewrite EI; cbn; lia|].
    replace (S (length items - 1)) with (length items) in E1 by (rewrite EI; cbn; lia).
    replace (repeat COpPrev (S (length items))) with (repeat COpPrev (length items) ++ [COpPrev])
      by (rewrite <- (repeat_cons (length items)); reflexivity).
    rewrite cmpl_steps_app, E1. cbn [rbind cmpl_steps cmpl_step].
    destruct (mv_step alnum false t1 l m1 r H1) as (b' & E & HS & HI).
    rewrite E. cbn [rbind]. eexists. split; [reflexivity|]. cbn [t_completions t_input set_completions set_input].
    rewrite Nat.sub_diag in Hh.
    split; [|split; cbn; rewrite ?Hh, ?Hi; auto].
    replace (c_replace (t_completions t)) with (shown (fst (highlight_prev (t_completions t1)))); [exact HS|].
    unfold shown; cbn. rewrite Hh. exact Hr.
Qed.

(** Only answers to the current request are listed. *)
Theorem items_current : forall alnum (answers : request -> str -> Prop) sent rq ops t,
  In rq sent -> (forall r, In r sent -> rq_changeset r = rq_changeset rq -> r = rq) ->
  c_changeset (t_completions t) = rq_changeset rq -> Forall (answers rq) (c_items (t_completions t)) ->
  (forall pkgs p, In (COpRecv pkgs) ops -> In p pkgs ->
     exists r, In r sent /\ pk_changeset p = rq_changeset r /\ Forall (answers r) (pk_items p)) ->
  forall t', cmpl_steps alnum ops t = Ok t' ->
  Forall (answers rq) (c_items (t_completions t')).
Proof.
  intros alnum answers sent rq ops. induction ops as [|op ops IH]; intros t Hin HU HC HA HP t' E; cbn [cmpl_steps] in E.
  - injection E as <-. exact HA.
  - destruct (cmpl_step alnum op t) as [t1|e|] eqn:E1; try discriminate. cbn [rbind] in E.
    assert (HP' : forall pkgs p, In (COpRecv pkgs) ops -> In p pkgs ->
     exists r, In r sent /\ pk_changeset p = rq_changeset r /\ Forall (answers r) (pk_items p))
      by (intros; eapply HP; eauto; right; eauto).
    apply (IH t1); auto.
    + destruct op as [| |w lf| |pk]; cbn [cmpl_step] in E1.
      * unfold mv_completions in E1. cbn in E1.
        destruct (delete_n _ _); try discriminate. cbn in E1. destruct (input_insert_str _ _); try discriminate.
        injection E1 as <-. exact HC.
      * unfold mv_completions in E1. cbn in E1.
        destruct (delete_n _ _); try discriminate. cbn in E1. destruct (input_insert_str _ _); try discriminate.
        injection E1 as <-. exact HC.
      * unfold mv_cursor in E1. destruct (if lf then _ else _); try discriminate. injection E1 as <-. exact HC.
      * injection E1 as <-. exact HC.
      * injection E1 as <-. exact HC.
    + destruct op as [| |w lf| |pk]; cbn [cmpl_step] in E1.
      * unfold mv_completions in E1. cbn in E1.
        destruct (delete_n _ _); try discriminate. cbn in E1. destruct (input_insert_str _ _); try discriminate.
        injection E1 as <-. exact HA.
      * unfold mv_completions in E1. cbn in E1.
        destruct (delete_n _ _); try discriminate. cbn in E1. destruct (input_insert_str _ _); try discriminate.
        injection E1 as <-. exact HA.
      * unfold mv_cursor in E1. destruct (if lf then _ else _); try discriminate. injection E1 as <-. constructor.
      * injection E1 as <-. constructor.
      * injection E1 as <-. cbn. apply Forall_app. split; auto.
        apply Forall_forall. intros s Hs. apply in_flat_map in Hs. destruct Hs as (p & Hp & Hs).
        apply filter_In in Hp. destruct Hp as [Hp Hq]. apply N.eqb_eq in Hq.
        destruct (HP pk p (or_introl eq_refl) Hp) as (r & Hr & Hc & Ha).
        assert (r = rq) as -> by (apply HU; auto; congruence). rewrite Forall_forall in Ha. auto.
Qed.
