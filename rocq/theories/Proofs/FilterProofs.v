From Coq Require Import List Permutation Bool Arith Lia NArith ZArith.
From Verif Require Import Spec.OpsSpec Model.Base Model.Value Model.TableCrate Model.RowPar Model.TableOps
  Spec.TableSpec Spec.ParSpec Proofs.ListLemmas Proofs.TableBasics Proofs.RowParProofs.
Import ListNotations.
Set Implicit Arguments.

Lemma retain_all : forall A (t : list A) f i, (forall k, i <= k < i + length t -> f k = true) ->
  retain_from f i t = t.
Proof.
  induction t as [|r t IH]; intros f i H; cbn; [reflexivity|].
  rewrite (H i) by (cbn; lia). f_equal. apply IH. intros; apply H; cbn; lia.
Qed.

Lemma retain_keep_rows_ok : forall owned (t : table) keep,
  rectangular t -> length keep = length t ->
  retain_keep_rows owned t keep = Ok (retain_from (fun i => nth i keep false) 0 t).
Proof.
  intros owned t keep HR HL. unfold retain_keep_rows.
  destruct (forallb (fun b => b) keep) eqn:EA.
  - f_equal. symmetry. apply retain_all. intros k Hk.
    rewrite forallb_forall in EA. apply EA. apply nth_In. lia.
  - unfold rows_len. rewrite HL. rewrite Nat.ltb_irrefl.
    destruct owned; [reflexivity|].
    rewrite table_from_rect; [reflexivity|].
    eapply rectangular_sub; [exact HR|]. intros r Hr. eapply retain_from_in; eauto.
Qed.


Lemma retain_header : forall h (d : table) keep,
  retain_from (fun i => nth i (true :: keep) false) 0 (h :: d) =
  h :: selected (fun i => nth (i - 1) keep false) (h :: d).
Proof.
  intros h d keep. cbn. f_equal.
  rewrite retain_from_combine. unfold selected, indexed; cbn.
  f_equal. apply filter_ext_in. intros [i r] Hi.
  apply in_combine_l in Hi. apply in_seq in Hi.
  cbn. destruct i; [lia|]. cbn. now rewrite Nat.sub_0_r.
Qed.


Lemma job_bool : forall g i b, job g (fun _ => as_bool) i = Ok b -> g i = Ok (VBool b).
Proof.
  unfold job; intros g i b. destruct (g i) as [[]| |]; cbn; congruence.
Qed.

Lemma selected_keep : forall g (h : row) d keep,
  map Ok keep = map (job g (fun _ => as_bool)) (seq 1 (length d)) ->
  selected (fun i => nth (i - 1) keep false) (h :: d) = selected (fun i => true_val (g i)) (h :: d).
Proof.
  intros g h d keep HM. unfold selected. f_equal. apply filter_ext_in.
  intros [i r] Hi. unfold indexed in Hi. cbn in Hi. apply in_combine_l in Hi. apply in_seq in Hi.
  cbn [fst].
  assert (nth_error (map (@Ok bool) keep) (i - 1) = Some (job g (fun _ => as_bool) i)) as HN.
  { rewrite HM. rewrite nth_error_map, nth_error_seq.
    destruct (Nat.ltb_spec (i - 1) (length d)); [|lia]. cbn [option_map]. replace (1 + (i - 1)) with i by lia. reflexivity. }
  rewrite nth_error_map in HN. destruct (nth_error keep (i - 1)) as [b|] eqn:Eb; [|discriminate].
  cbn in HN. injection HN as HN. symmetry in HN. apply job_bool in HN.
  rewrite HN. rewrite (nth_error_nth keep (i - 1) false Eb).
  destruct b; reflexivity.
Qed.

Lemma filter_keep_outcome : forall C (ev : C -> nat -> res value * C) init g sched (h : row) d,
  row_function ev init g -> complete_schedule (length (h :: d)) sched ->
  match filter_keep ev init sched (h :: d) with
  | Ok l => exists l', l = true :: l' /\
              rows_outcome (seq 1 (length d)) (job g (fun _ => as_bool)) (Ok l')
  | Err e => rows_outcome (seq 1 (length d)) (job g (fun _ => as_bool)) (Err e)
  | Panic => rows_outcome (seq 1 (length d)) (job g (fun _ => as_bool)) (@Panic (list bool))
  end.
Proof.
  intros C ev init g sched h d Hev HS. unfold filter_keep, rows_len. cbn [length repeat].
  replace (length d) with (length (repeat true (length d))) by apply repeat_length.
  replace (repeat true (length (repeat true (length d)))) with (repeat true (length d)).
  2:{ now rewrite repeat_length. }
  apply assign_outcome; auto. now rewrite repeat_length.
Qed.


Lemma job_bool_err : forall g i e, job g (fun _ => as_bool) i = Err e -> pred_error (g i) e.
Proof.
  unfold job, pred_error; intros g i e.
  destruct (g i) as [[]| |] eqn:E; cbn; intros [= <-]; auto; right; split; auto;
    eexists; split; eauto; discriminate.
Qed.

Lemma job_bool_panic : forall g i, job g (fun _ => as_bool) i = Panic -> g i = Panic.
Proof. unfold job; intros g i; destruct (g i) as [[]| |]; cbn; congruence. Qed.

Theorem filter_table_outcome : forall C (ev : C -> nat -> res value * C) init g sched owned (t : table),
  rectangular t -> row_function ev init g -> complete_schedule (length t) sched ->
  match filter_table ev init sched owned t with
  | Ok t' => (forall i, 1 <= i < length t -> is_bool (g i)) /\
             t' = header t ++ selected (fun i => true_val (g i)) t
  | Err e => exists i, 1 <= i < length t /\ pred_error (g i) e
  | Panic => exists i, 1 <= i < length t /\ g i = Panic
  end.
Proof.
  intros C ev init g sched owned t HR Hev HS.
  destruct t as [|h d].
  - unfold filter_table, filter_keep. cbn in *.
    unfold complete_schedule in HS. cbn in HS. apply Permutation_sym, Permutation_nil in HS.
    apply map_eq_nil in HS. subst. cbn. split; [intros; lia|reflexivity].
  - pose proof (@filter_keep_outcome _ ev init g sched h d Hev HS) as H.
    unfold filter_table. destruct (filter_keep ev init sched (h :: d)) as [l|e|]; cbn [rbind].
    + destruct H as (keep & -> & HM). cbn in HM.
      assert (length keep = length d) as HL.
      { apply (f_equal (@length _)) in HM. rewrite !map_length, seq_length in HM. exact HM. }
      rewrite retain_keep_rows_ok; [|assumption|cbn; now rewrite HL].
      split.
      * intros i Hi. cbn in Hi.
        assert (In (job g (fun _ => as_bool) i) (map (@Ok bool) keep)) as HI.
        { rewrite HM. apply in_map. apply in_seq. lia. }
        apply in_map_iff in HI. destruct HI as (b & Eb & _). symmetry in Eb.
        apply job_bool in Eb. exists b; auto.
      * rewrite retain_header. cbn [header app]. f_equal. now apply selected_keep.
    + cbn in H. destruct H as ((i & Hi & Ei) & _). apply in_seq in Hi.
      exists i. split; [cbn; lia|]. now apply job_bool_err.
    + cbn in H. destruct H as (i & Hi & Ei). apply in_seq in Hi.
      exists i. split; [cbn; lia|]. now apply job_bool_panic.
Qed.

(** Filtering on a column: the value judged for row [i]. *)
Definition col_judgement (name : str) (exp : ty) (pred : value -> res value) (t : table) (i : nat)
  : res value :=
  let? j := col_idx t name in
  let? e := entry_at t i j in
  match cnv_value e exp with Ok v => pred v | _ => Ok (VBool false) end.

Lemma known_col_step : forall name exp pred t k c i, cache_ok t c ->
  exists c', known_col_cb name exp pred t k c i =
    (match job (col_judgement name exp pred t) (fun _ => as_bool) i with Ok b => b | _ => k end, c',
     match job (col_judgement name exp pred t) (fun _ => as_bool) i with
     | Ok _ => Ok tt | Err e => Err e | Panic => Panic end) /\ cache_ok t c'.
Proof.
  intros name exp pred t k c i H. unfold known_col_cb, row_entry.
  destruct (cached_col_idx_ok name H) as [E1 E2].
  destruct (cached_col_idx t c name) as [j c'] eqn:E. cbn in E1, E2.
  exists c'. split; auto. subst j. unfold job, col_judgement.
  destruct (col_idx t name) as [j|e|]; cbn; try reflexivity.
  destruct (entry_at t i j) as [x|e|]; cbn; try reflexivity.
  destruct (cnv_value x exp); cbn; try reflexivity.
  destruct (rbind (pred a) as_bool); reflexivity.
Qed.

Theorem filter_table_col_outcome : forall name exp pred sched owned (t : table),
  rectangular t -> complete_schedule (length t) sched ->
  match filter_table_col name exp pred sched owned t with
  | Ok t' => (forall i, 1 <= i < length t -> is_bool (col_judgement name exp pred t i)) /\
             t' = header t ++ selected (fun i => true_val (col_judgement name exp pred t i)) t
  | Err e => exists i, 1 <= i < length t /\ pred_error (col_judgement name exp pred t i) e
  | Panic => exists i, 1 <= i < length t /\ col_judgement name exp pred t i = Panic
  end.
Proof.
  intros name exp pred sched owned t HR HS.
  assert (E : filter_table_col name exp pred sched owned t =
    filter_table (fun (c : cache) i => (col_judgement name exp pred t i, c)) [] sched owned t).
  { unfold filter_table_col, filter_table, filter_keep.
    assert (E2 : forall A (P : res (list A)) Q, P = Q -> forall k, @rbind _ table P k = rbind Q k) by (intros; subst; auto).
    apply E2. unfold par_over_tablerows.
    assert (G : forall sched (s1 s2 : par_state bool cache),
       (forall i, In i (map snd sched) -> 1 <= i) ->
       (forall k c, In (k, c) (ps_ctx s1) -> cache_ok t c) ->
       ps_buf s1 = ps_buf s2 -> ps_err s1 = ps_err s2 -> ps_panic s1 = ps_panic s2 ->
       let a := fold_left (par_step (known_col_cb name exp pred t) []) sched s1 in
       let b := fold_left (par_step (assign_cb (fun (c : cache) i => (col_judgement name exp pred t i, c))
                   (fun _ => as_bool)) []) sched s2 in
       ps_buf a = ps_buf b /\ ps_err a = ps_err b /\ ps_panic a = ps_panic b).
    { clear. induction sched as [|[w i] sched IH]; intros s1 s2 HI HC HB HE HP; cbn [fold_left]; [auto|].
      apply IH.
      - intros; apply HI; cbn; auto.
      - unfold par_step. destruct (nth_error (ps_buf s1) i); auto.
        destruct (@known_col_step name exp pred t b (ctx_get [] (ps_ctx s1) w) i) as (c' & Ec & Hc').
        { apply ctx_get_inv; auto. intros n j; cbn; discriminate. }
        rewrite Ec. cbn. intros k c [[= <- <-]|Hk]; eauto.
      - unfold par_step. rewrite <- HB. destruct (nth_error (ps_buf s1) i); auto.
        destruct (@known_col_step name exp pred t b (ctx_get [] (ps_ctx s1) w) i) as (c' & Ec & Hc').
        { apply ctx_get_inv; auto. intros n j; cbn; discriminate. }
        rewrite Ec. unfold assign_cb, job.
        destruct (rbind (col_judgement name exp pred t i) as_bool); reflexivity.
      - unfold par_step. rewrite <- HB. destruct (nth_error (ps_buf s1) i); auto.
        destruct (@known_col_step name exp pred t b (ctx_get [] (ps_ctx s1) w) i) as (c' & Ec & Hc').
        { apply ctx_get_inv; auto. intros n j; cbn; discriminate. }
        rewrite Ec. unfold assign_cb, job.
        destruct (rbind (col_judgement name exp pred t i) as_bool); cbn; congruence.
      - unfold par_step. rewrite <- HB. destruct (nth_error (ps_buf s1) i); auto.
        destruct (@known_col_step name exp pred t b (ctx_get [] (ps_ctx s1) w) i) as (c' & Ec & Hc').
        { apply ctx_get_inv; auto. intros n j; cbn; discriminate. }
        rewrite Ec. unfold assign_cb, job.
        destruct (rbind (col_judgement name exp pred t i) as_bool); cbn; congruence. }
    edestruct (G sched (ParState (repeat true (rows_len t)) [] None false)
                       (ParState (repeat true (rows_len t)) [] None false)) as (-> & -> & ->); auto.
    - intros i Hi. eapply Permutation_in in Hi; [|exact HS]. apply in_seq in Hi. lia.
    - intros k c []. }
  rewrite E. apply filter_table_outcome; auto.
  exists (fun _ => True). split; auto.
Qed.

Lemma map_eq_from_nth : forall A B (f g : A -> B) l, (forall i a, nth_error l i = Some a -> f a = g a) -> map f l = map g l.
Proof.
  intros. apply map_ext_in. intros a Ha. apply In_nth_error in Ha. destruct Ha as (i & Hi). eauto.
Qed.
