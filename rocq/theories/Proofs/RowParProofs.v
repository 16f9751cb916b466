From Coq Require Import List Permutation Bool Arith Lia NArith ZArith.
From Verif Require Import Model.Base Model.Value Model.TableCrate Model.RowPar
  Spec.TableSpec Spec.ParSpec Proofs.ListLemmas Proofs.TableBasics.
Import ListNotations.
Set Implicit Arguments.

Section Par.
  Variables A C : Type.
  Variable f : A -> C -> nat -> A * C * res unit.
  Variable init : C.
  Variable inv : C -> Prop.
  Variable upd : nat -> A -> A.
  Variable r : nat -> res unit.
  Hypothesis Hinit : inv init.
  Hypothesis Hf : forall a c i, inv c -> 1 <= i ->
    exists c', f a c i = (upd i a, c', r i) /\ inv c'.

  Lemma ctx_get_inv : forall m w, (forall k c, In (k, c) m -> inv c) -> inv (ctx_get init m w).
  Proof.
    induction m as [|[k c] m IH]; cbn; intros w H; [exact Hinit|].
    destruct (Nat.eqb k w); [eauto|]. apply IH. intros; eauto.
  Qed.

  Definition good (buf0 : list A) (done : list nat) (s : par_state A C) : Prop :=
    length (ps_buf s) = length buf0 /\
    (forall i, nth_error (ps_buf s) i =
               if in_dec Nat.eq_dec i done then option_map (upd i) (nth_error buf0 i)
               else nth_error buf0 i) /\
    (forall k c, In (k, c) (ps_ctx s) -> inv c) /\
    (ps_panic s = true <-> exists i, In i done /\ r i = Panic) /\
    match ps_err s with
    | Some e => exists i, In i done /\ r i = Err e
    | None => forall i e, In i done -> r i <> Err e
    end.

  Lemma step_good : forall buf0 done s w i,
    good buf0 done s -> ~ In i done -> 1 <= i < length buf0 ->
    good buf0 (i :: done) (par_step f init s (w, i)).
  Proof.
    intros buf0 done s w i (HL & HB & HC & HP & HE) Hni Hi.
    unfold par_step.
    destruct (nth_error (ps_buf s) i) as [a|] eqn:Ea.
    2:{ apply nth_error_None in Ea. lia. }
    destruct (@Hf a (ctx_get init (ps_ctx s) w) i) as (c' & Ef & Hc'); [|lia|].
    { now apply ctx_get_inv. }
    rewrite Ef. unfold good; cbn [ps_buf ps_ctx ps_err ps_panic].
    split; [now rewrite set_nth_length|].
    split; [|split; [|split]].
    - intros j. rewrite nth_error_set_nth.
      destruct (Nat.eqb_spec i j) as [<-|Nij].
      + rewrite Ea. destruct (in_dec Nat.eq_dec i (i :: done)) as [_|N]; [|cbn in N; tauto].
        rewrite HB in Ea. destruct (in_dec Nat.eq_dec i done); [tauto|].
        rewrite Ea. reflexivity.
      + rewrite HB. destruct (in_dec Nat.eq_dec j done) as [J|J], (in_dec Nat.eq_dec j (i :: done)) as [K|K];
          cbn in K; try reflexivity; exfalso; intuition congruence.
    - intros k c [E|E]; [injection E as <- <-; auto|eauto].
    - destruct (r i) eqn:Er.
      + rewrite HP. split; intros (j & Hj & Ej); exists j; cbn in *; intuition congruence.
      + rewrite HP. split; intros (j & Hj & Ej); exists j; cbn in *; intuition congruence.
      + split; auto. intros _. exists i. cbn; auto.
    - destruct (r i) eqn:Er.
      + destruct (ps_err s) as [e|].
        * destruct HE as (j & Hj & Ej). exists j; cbn; auto.
        * intros j e [<-|Hj]; [congruence|eauto].
      + exists i; cbn; auto.
      + destruct (ps_err s) as [e|].
        * destruct HE as (j & Hj & Ej). exists j; cbn; auto.
        * intros j e [<-|Hj]; [congruence|eauto].
  Qed.

  Lemma fold_good : forall sched buf0 done s,
    good buf0 done s -> NoDup (map snd sched) ->
    (forall i, In i (map snd sched) -> ~ In i done /\ 1 <= i < length buf0) ->
    good buf0 (rev (map snd sched) ++ done) (fold_left (par_step f init) sched s).
  Proof.
    induction sched as [|[w i] sched IH]; intros buf0 done s G ND HI; cbn in *; [exact G|].
    inversion ND; subst.
    rewrite <- app_assoc. cbn. apply IH; auto.
    - apply step_good; auto; apply HI; auto.
    - intros j Hj. split; [|apply HI; auto].
      intros [<-|K]; [contradiction|]. eapply HI; eauto.
  Qed.

  Lemma par_good : forall sched buf0, complete_schedule (length buf0) sched ->
    exists done, Permutation done (seq 1 (length buf0 - 1)) /\
    good buf0 done (fold_left (par_step f init) sched (ParState buf0 [] None false)).
  Proof.
    intros sched buf0 HS. unfold complete_schedule in HS.
    exists (rev (map snd sched) ++ []). split.
    { rewrite app_nil_r. rewrite <- Permutation_rev. exact HS. }
    apply fold_good.
    - unfold good; cbn. split; [reflexivity|]. split; [|split; [easy|split]].
      + intros i. reflexivity.
      + split; [congruence|intros (i & [] & _)].
      + intros i e [].
    - eapply Permutation_NoDup; [symmetry; exact HS|apply seq_NoDup].
    - intros i Hi. split; [easy|].
      eapply Permutation_in in Hi; [|exact HS]. apply in_seq in Hi. lia.
  Qed.

  Theorem par_over_tablerows_outcome : forall sched buf0,
    complete_schedule (length buf0) sched ->
    match par_over_tablerows f init sched buf0 with
    | Ok buf => length buf = length buf0 /\
                (forall i, 1 <= i < length buf0 -> r i = Ok tt) /\
                (forall i, nth_error buf i =
                           if i =? 0 then nth_error buf0 i else option_map (upd i) (nth_error buf0 i))
    | Err e => (exists i, 1 <= i < length buf0 /\ r i = Err e) /\
               (forall i, 1 <= i < length buf0 -> r i <> Panic)
    | Panic => exists i, 1 <= i < length buf0 /\ r i = Panic
    end.
  Proof.
    intros sched buf0 HS. destruct (@par_good sched buf0 HS) as (done & PD & HL & HB & HC & HP & HE).
    assert (HD : forall i, In i done <-> 1 <= i < length buf0).
    { intros i; split; intros H.
      - eapply Permutation_in in H; [|exact PD]. apply in_seq in H. lia.
      - eapply Permutation_in; [symmetry; exact PD|]. apply in_seq. lia. }
    unfold par_over_tablerows.
    set (s := fold_left _ _ _) in *.
    destruct (ps_panic s) eqn:EP.
    - destruct (proj1 HP eq_refl) as (i & Hi & Ei). exists i. rewrite <- HD. auto.
    - assert (forall i, In i done -> r i <> Panic) as NP.
      { intros i Hi Ei. assert (false = true) by (apply HP; eauto). discriminate. }
      destruct (ps_err s) as [e|].
      + destruct HE as (i & Hi & Ei). split.
        * exists i. rewrite <- HD. auto.
        * intros j Hj. apply NP. now apply HD.
      + split; [exact HL|]. split.
        * intros i Hi. apply HD in Hi. destruct (r i) as [[]|e|] eqn:Er; auto.
          { exfalso. eapply HE; eauto. }
          { exfalso. eapply NP; eauto. }
        * intros i. rewrite HB.
          destruct (in_dec Nat.eq_dec i done) as [Hi|Hi].
          { apply HD in Hi. destruct (Nat.eqb_spec i 0); [lia|]. reflexivity. }
          { destruct (Nat.eqb_spec i 0); [reflexivity|].
            rewrite HD in Hi. destruct (nth_error buf0 i) eqn:E; [|reflexivity].
            exfalso. apply Hi. split; [lia|]. apply nth_error_Some. congruence. }
  Qed.
End Par.

(** The same for callbacks that assign the result of an evaluation. *)
Section Assign.
  Variables A C : Type.
  Variable ev : C -> nat -> res value * C.
  Variable init : C.
  Variable g : nat -> res value.
  Variable cv : nat -> value -> res A.
  Hypothesis Hev : row_function ev init g.

  Definition job (i : nat) : res A := rbind (g i) (cv i).

  Theorem assign_outcome : forall sched (h : A) buf,
    complete_schedule (S (length buf)) sched ->
    match par_over_tablerows (assign_cb ev cv) init sched (h :: buf) with
    | Ok l => exists l', l = h :: l' /\ rows_outcome (seq 1 (length buf)) job (Ok l')
    | Err e => rows_outcome (seq 1 (length buf)) job (Err e)
    | Panic => rows_outcome (seq 1 (length buf)) job Panic
    end.
  Proof.
    intros sched h buf HS.
    destruct Hev as (inv & Hi & Hstep).
    pose (upd := fun i a => match job i with Ok a' => a' | _ => a end).
    pose (r := fun i => match job i with Ok _ => Ok tt | Err e => Err e | Panic => @Panic unit end).
    assert (Hf : forall a c i, inv c -> 1 <= i ->
      exists c', assign_cb ev cv a c i = (upd i a, c', r i) /\ inv c').
    { intros a c i Hc Hi1. unfold assign_cb.
      destruct (Hstep c i Hc Hi1) as [E1 E2]. destruct (ev c i) as [x c'] eqn:Ee. cbn in E1, E2. subst x.
      exists c'. split; auto. unfold upd, r, job. destruct (rbind (g i) (cv i)); reflexivity. }
    pose proof (@par_over_tablerows_outcome _ _ _ init inv upd r Hi Hf sched (h :: buf) HS) as H.
    destruct (par_over_tablerows _ _ _ _) as [l|e|].
    - destruct H as (HL & HR & HN).
      destruct l as [|h' l']; [discriminate|].
      pose proof (HN 0) as H0. cbn in H0. injection H0 as ->.
      exists l'. split; [reflexivity|]. cbn. apply nth_error_ext. intros i.
      rewrite !nth_error_map. rewrite nth_error_seq.
      specialize (HN (S i)). cbn in HN. rewrite HN. cbn [length] in HR.
      destruct (Nat.ltb_spec i (length buf)) as [L|L].
      + assert (1 <= S i < S (length buf)) as R by lia. specialize (HR _ R).
        unfold r, upd in *. cbn [option_map]. replace (1 + i) with (S i) by lia.
        destruct (nth_error buf i) eqn:E; [|apply nth_error_None in E; lia].
        cbn. destruct (job (S i)); try discriminate. reflexivity.
      + replace (nth_error buf i) with (@None A) by (symmetry; apply nth_error_None; lia). reflexivity.
    - cbn in *. destruct H as ((i & Hi1 & Ei) & HNP). split.
      + exists i. split; [apply in_seq; lia|]. unfold r in Ei. destruct (job i); congruence.
      + intros j Hj. apply in_seq in Hj. assert (1 <= j < S (length buf)) as Hj' by lia.
        specialize (HNP j Hj'). unfold r in HNP. destruct (job j); congruence.
    - cbn in *. destruct H as (i & Hi1 & Ei). exists i. split; [apply in_seq; lia|].
      unfold r in Ei. destruct (job i); congruence.
  Qed.
End Assign.

(** ** The column cache *)

Definition cache_ok (t : table) (c : cache) : Prop :=
  forall name i, cache_get c name = Some i -> col_idx t name = Ok i.

Lemma cached_col_idx_ok : forall t c name, cache_ok t c ->
  fst (cached_col_idx t c name) = col_idx t name /\ cache_ok t (snd (cached_col_idx t c name)).
Proof.
  intros t c name H. unfold cached_col_idx.
  destruct (cache_get c name) as [i|] eqn:E.
  - cbn. split; auto. symmetry. now apply H.
  - destruct (col_idx t name) as [i|e|] eqn:Ei; cbn; split; auto.
    intros n j. cbn. destruct (str_eqb_spec name n) as [<-|N].
    + intros [= <-]. exact Ei.
    + apply H.
Qed.

(** What a row expression computes when every lookup searches the header. *)
Fixpoint run_direct (p : rowprog) (t : table) (i : nat) : res value :=
  match p with
  | RDone r => r
  | RAsk name k => run_direct (k (let? j := col_idx t name in entry_at t i j)) t i
  end.

Lemma run_rowprog_direct : forall p t i c, cache_ok t c ->
  fst (run_rowprog p t i c) = run_direct p t i /\ cache_ok t (snd (run_rowprog p t i c)).
Proof.
  induction p as [r|name k IH]; intros t i c H; cbn; [auto|].
  unfold row_entry. destruct (cached_col_idx_ok name H) as [E1 E2].
  destruct (cached_col_idx t c name) as [j c'] eqn:E. cbn in E1, E2. subst j.
  now apply IH.
Qed.

Lemma rowprog_row_function : forall (p : nat -> rowprog) t,
  row_function (fun c i => run_rowprog (p i) t i c) [] (fun i => run_direct (p i) t i).
Proof.
  intros p t. exists (cache_ok t). split.
  - intros n i; cbn; discriminate.
  - intros c i Hc _. now apply run_rowprog_direct.
Qed.
