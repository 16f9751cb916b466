From Coq Require Import String List Bool Arith Lia NArith ZArith.
From Verif Require Import Spec.OpsSpec Model.Base Model.Value Model.TableCrate Model.RowPar Model.TableOps Model.Get
  Spec.TableSpec Spec.ColSpec Proofs.ListLemmas Proofs.TableBasics Proofs.ColLemmas Proofs.RowParProofs.
Import ListNotations.
Set Implicit Arguments.



Theorem table_row_get_correct : forall (t : table) i c col g,
  rectangular t -> i < length t -> cache_ok t c ->
  let out := fst (table_row_get t i c col g) in
  cache_ok t (snd (table_row_get t i c col g)) /\
  match col with
  | Err e => out = Err e
  | Panic => out = Panic
  | Ok (VStr name) =>
      (no_column_named t name -> exists e, out = Err e) /\
      (forall j, column_named t name j -> exists e, cell t i j = Some e /\ got g (val_of_ent e) out)
  | Ok _ => exists e, out = Err e
  end.
Proof.
  intros t i c col g HR Hi HC. unfold table_row_get.
  destruct col as [v|e|]; cbn [rbind]; [|split; auto|split; auto].
  destruct v; cbn [as_str]; cbn [fst snd]; try (split; [exact HC|eauto]).
  unfold row_entry. destruct (@cached_col_idx_ok t c s HC) as [E1 E2].
  destruct (cached_col_idx t c s) as [j c'] eqn:E. cbn [fst snd] in *. split; [exact E2|].
  subst j. split.
  - intros HN. pose proof (col_idx_spec t s) as K. destruct (col_idx t s) as [d|e|].
    + exfalso. eapply HN; eauto.
    + exists e. reflexivity.
    + destruct K.
  - intros j Hj. rewrite (proj2 (col_idx_iff t s j) Hj). cbn [rbind].
    pose proof (column_named_width Hj) as Hw.
    destruct (nth_error t i) as [r|] eqn:Er; [|apply nth_error_None in Er; lia].
    assert (j < length r) as Hj2.
    { rewrite (rectangular_width HR r); auto. eapply nth_error_In; eauto. }
    destruct (nth_error r j) as [e|] eqn:Ee; [|apply nth_error_None in Ee; lia].
    exists e. unfold cell, entry_at, get_cell. rewrite Er, Ee. split; auto.
    cbn [rbind]. unfold got, same_type, cnv_value. destruct g as [ot d|ft].
    + destruct (ty_eqb (ty_of (val_of_ent e)) ot); reflexivity.
    + destruct (ty_eqb (ty_of (val_of_ent e)) ft); eauto.
Qed.

(** The value delivered has the type promised, if the default does. *)
Theorem table_row_get_type : forall (t : table) i c col g v,
  (forall o d, g = GDefault o (Ok d) -> same_type d o = true) ->
  fst (table_row_get t i c col g) = Ok v -> same_type v (get_type_ty g) = true.
Proof.
  intros t i c col g v HD. unfold table_row_get.
  destruct (rbind col as_str) as [name|e|]; cbn [fst]; try discriminate.
  destruct (row_entry t i c name) as [[e|x|] c']; cbn [fst rbind]; try discriminate.
  destruct g as [ot d|ft]; cbn [get_type_ty].
  - destruct (ty_eqb (ty_of (val_of_ent e)) ot) eqn:E; cbn [negb].
    + intros [= <-]. exact E.
    + intros ->. now apply HD.
  - unfold cnv_value, same_type. destruct (ty_eqb (ty_of (val_of_ent e)) ft) eqn:E; [|discriminate].
    intros [= <-]. exact E.
Qed.

(** ** Fields of user types *)

Lemma field_index_spec : forall name fs,
  match field_index name fs with
  | Some (i, t) => nth_error fs i = Some (name, t) /\ forall j u, j < i -> nth_error fs j <> Some (name, u)
  | None => forall j u, nth_error fs j <> Some (name, u)
  end.
Proof.
  intros name. induction fs as [|[n t] fs IH]; cbn.
  - intros [] u; discriminate.
  - destruct (str_eqb_spec n name) as [->|N].
    + split; auto. intros; lia.
    + destruct (field_index name fs) as [[i u]|].
      * destruct IH as [A B]. split; auto. intros [|j] v Hj; cbn; [congruence|]. apply B. lia.
      * intros [|j] v; cbn; [congruence|]. apply IH.
Qed.

Theorem field_access_correct : forall d name fs x variant vs owned,
  d = TyDef name (TProduct fs) ->
  Forall2 (fun v f => same_type v (snd f) = true) vs fs ->
  match field_accessor (TDef d) x with
  | Ok (i, t) => nth_error fs i = Some (x, t) /\
      exists v, nth_error vs i = Some v /\ field_get owned i (VOgma d variant vs) = Ok v /\ same_type v t = true
  | Err _ => forall i t, nth_error fs i <> Some (x, t)
  | Panic => False
  end.
Proof.
  intros d name fs x variant vs owned -> HF. cbn [field_accessor].
  pose proof (field_index_spec x fs) as H. destruct (field_index x fs) as [[i t]|]; auto.
  destruct H as [H _]. split; auto.
  assert (exists v, nth_error vs i = Some v /\ same_type v t = true) as (v & Ev & Et).
  { clear -HF H. revert i H. induction HF as [|v f vs fs Hv HF IH]; intros [|i] H; cbn in *; try discriminate.
    - injection H as ->. eauto.
    - now apply IH. }
  exists v. split; auto. split; auto. cbn. now rewrite Ev.
Qed.

Theorem field_accessor_iff : forall t x i u,
  field_accessor t x = Ok (i, u) <->
  exists name fs, t = TDef (TyDef name (TProduct fs)) /\ nth_error fs i = Some (x, u) /\
    forall j w, j < i -> nth_error fs j <> Some (x, w).
Proof.
  intros t x i u. split.
  - intros H. destruct t as [| | | | | |[name b]]; try discriminate H. destruct b as [?|fs]; try discriminate H.
    exists name, fs. split; [reflexivity|]. cbn [field_accessor] in H. pose proof (field_index_spec x fs) as Q.
    destruct (field_index x fs) as [[k v]|]; [|discriminate H]. injection H as -> ->. destruct Q as [A B].
    split; [exact A|]. intros j w L. apply B. exact L.
  - intros (name & fs & -> & A & B). cbn [field_accessor]. pose proof (field_index_spec x fs) as Q.
    destruct (field_index x fs) as [[k v]|].
    + destruct Q as [Q1 Q2]. destruct (Nat.lt_trichotomy k i) as [L|[E|L]].
      * exfalso. exact (B k v L Q1).
      * subst k. congruence.
      * exfalso. exact (Q2 i u L A).
    + exfalso. exact (Q i u A).
Qed.
