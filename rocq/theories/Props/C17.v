(** C17: the column index cache is transparent. *)
From Coq Require Import String List ZArith NArith.
From Verif Require Import Model.Base Model.Value Model.TableCrate Model.RowPar
  Spec.TableSpec Spec.ColSpec Spec.CacheSpec Proofs.RowParProofs Proofs.CacheProofs Proofs.Samples.
Import ListNotations.

(** A row program looks cells up by name, adaptively; [reads] is its meaning on the plain table.
    [fed t c]: the cache was filled by earlier lookups on [t]. *)
Theorem C17_transparent : forall p t i c, rectangular t -> i < length t -> fed t c ->
  exists v c', run_rowprog p t i c = (v, c') /\ reads t i p v /\ fed t c'.
Proof. exact cache_transparent. Qed.
Print Assumptions C17_transparent.

(** The meaning does not mention the cache and is unique. *)
Theorem C17_reads_unique : forall t i p v w, reads t i p v -> reads t i p w -> v = w.
Proof. exact reads_unique. Qed.
Print Assumptions C17_reads_unique.

(** Any state reached from the empty cache by runs on rows of [t] is fed. *)
Theorem C17_reachable : forall t, fed t [] /\
  forall p i c, fed t c -> fed t (snd (run_rowprog p t i c)).
Proof. exact fed_reachable. Qed.
Print Assumptions C17_reachable.

Example C17_example :
  let p := RAsk (lit "qty") (fun a => RAsk (lit "qty") (fun b => RAsk (lit "colour") (fun d =>
             RDone (match d with Err _ => let? e := b in Ok (val_of_ent e) | _ => Panic end)))) in
  run_rowprog p stock 1 [] = (Ok (num 7), [(lit "qty", 1)]) /\
  run_rowprog p stock 2 [(lit "qty", 1)] = (Ok (num 3), [(lit "qty", 1)]) /\ fed stock [(lit "qty", 1)].
Proof.
  cbv zeta. split; [vm_compute; reflexivity|]. split; [vm_compute; reflexivity|].
  intros n c. cbn [In]. intros [[= <- <-]|[]]. apply column_named_b. reflexivity.
Qed.
