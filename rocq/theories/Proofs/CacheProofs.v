From Coq Require Import List ZArith NArith Arith Lia.
From Verif Require Import Model.Base Model.Value Model.TableCrate Model.RowPar Spec.TableSpec Spec.ColSpec Spec.CacheSpec
  Proofs.TableBasics Proofs.ColLemmas Proofs.RowParProofs.
Import ListNotations.

Lemma col_idx_err_code : forall t n e, 0 < length t -> col_idx t n = Err e -> e = 11.
Proof.
  intros t n e H. unfold col_idx. destruct t as [|h d]; [inversion H|]. destruct (hdr_position n h); congruence.
Qed.

Lemma cache_get_in : forall c n i, cache_get c n = Some i -> In (n, i) c.
Proof.
  induction c as [|[k j] c IH]; intros n i; cbn; [discriminate|].
  destruct (str_eqb_spec k n) as [->|N]; [intros [= ->]; auto|]. auto.
Qed.

Lemma fed_step : forall t c name, fed t c ->
  fst (cached_col_idx t c name) = col_idx t name /\ fed t (snd (cached_col_idx t c name)).
Proof.
  intros t c name H. unfold cached_col_idx.
  destruct (cache_get c name) as [i|] eqn:E.
  - split; auto. cbn. apply cache_get_in in E. apply H in E. symmetry. now apply col_idx_iff.
  - destruct (col_idx t name) as [i|e|] eqn:Ei; cbn [fst snd]; split; auto.
    intros n j [[= <- <-]|Hj]; auto. now apply col_idx_iff.
Qed.

Theorem cache_transparent : forall p t i c, rectangular t -> i < length t -> fed t c ->
  exists v c', run_rowprog p t i c = (v, c') /\ reads t i p v /\ fed t c'.
Proof.
  induction p as [r|name k IH]; intros t i c HR Hi HF.
  - exists r, c. split; [reflexivity|]. split; [constructor|auto].
  - cbn [run_rowprog]. unfold row_entry. destruct (fed_step _ _ name HF) as [E1 E2].
    destruct (cached_col_idx t c name) as [j c0] eqn:E. cbn in E1, E2. subst j.
    destruct (col_idx t name) as [j|e|] eqn:Ej; cbn [rbind].
    + assert (HC : column_named t name j) by now apply col_idx_iff.
      pose proof (column_named_width HC) as HW.
      destruct (nth_error t i) as [r|] eqn:Er; [|apply nth_error_None in Er; lia].
      destruct (nth_error r j) as [e|] eqn:Ee.
      2:{ apply nth_error_None in Ee. rewrite (rectangular_width HR r) in Ee; [lia|]. eapply nth_error_In; eauto. }
      assert (Ea : entry_at t i j = Ok e) by (unfold entry_at, get_cell; now rewrite Er, Ee).
      rewrite Ea. destruct (IH (Ok e) t i c0 HR Hi E2) as (v & c' & Hr & Hv & Hc').
      exists v, c'. split; auto. split; auto. eapply reads_cell; eauto. unfold cell. now rewrite Er.
    + assert (e = 11) by (eapply col_idx_err_code; eauto; lia). subst e.
      destruct (IH (Err 11) t i c0 HR Hi E2) as (v & c' & Hr & Hv & Hc').
      exists v, c'. split; auto. split; auto. eapply reads_missing; eauto. eapply col_idx_err; eauto.
    + exfalso. eapply col_idx_no_panic; eauto.
Qed.

Theorem reads_unique : forall t i p v w, reads t i p v -> reads t i p w -> v = w.
Proof.
  intros t i p v w H. revert w. induction H; intros w Hw; inversion Hw; subst; auto.
  - apply IHreads. replace e with e0; auto. assert (c = c0) as <- by (eapply column_named_fun; eauto). congruence.
  - exfalso. eapply H4; eauto.
  - exfalso. eapply H; eauto.
Qed.

Theorem fed_reachable : forall t, fed t [] /\
  forall p i c, fed t c -> fed t (snd (run_rowprog p t i c)).
Proof.
  intros t. split; [intros n i []|]. induction p as [r|name k IH]; intros i c HF; cbn [run_rowprog]; auto.
  unfold row_entry. destruct (fed_step _ _ name HF) as [_ E2].
  destruct (cached_col_idx t c name) as [j c0]. apply IH. exact E2.
Qed.
