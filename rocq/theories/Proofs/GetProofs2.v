From Coq Require Import List ZArith NArith.
From Verif Require Import Model.Base Model.Value Model.TableCrate Model.RowPar Model.Get
  Spec.TableSpec Spec.ColSpec Spec.OpsSpec Spec.CacheSpec Proofs.ColLemmas Proofs.RowParProofs Proofs.CacheProofs Proofs.GetProofs.
Import ListNotations.

Theorem table_row_get_full : forall (t : table) i c col g,
  rectangular t -> i < length t -> fed t c ->
  let out := fst (table_row_get t i c col g) in
  fed t (snd (table_row_get t i c col g)) /\
  match col with
  | Err e => out = Err e
  | Panic => out = Panic
  | Ok (VStr name) =>
      (no_column_named t name -> exists e, out = Err e) /\
      (forall j, column_named t name j -> exists e, cell t i j = Some e /\ got g (val_of_ent e) out)
  | Ok _ => exists e, out = Err e
  end.
Proof.
  intros t i c col g HR Hi HF out.
  assert (HC : cache_ok t c).
  { intros n j Hj. apply cache_get_in in Hj. apply HF in Hj. now apply col_idx_iff. }
  destruct (@table_row_get_correct t i c col g HR Hi HC) as [_ K]. split; [|exact K].
  clear K out. unfold table_row_get. destruct (rbind col as_str) as [name|e|]; auto.
  unfold row_entry. destruct (fed_step _ _ name HF) as [_ E2].
  destruct (cached_col_idx t c name) as [j c0]. exact E2.
Qed.
