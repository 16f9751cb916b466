From Coq Require Import List Arith Lia.
From Verif Require Import Model.Base Model.Value Model.TableCrate Spec.TableSpec Spec.ColSpec
  Proofs.TableBasics Proofs.ColLemmas Proofs.RectProofs.
Import ListNotations.

Theorem built_in_bounds : forall t name c i, built t -> column_named t name c -> i < length t ->
  exists e, cell t i c = Some e.
Proof.
  intros t name c i HB HC Hi. pose proof (built_rectangular HB) as HR. pose proof (column_named_width HC) as HW.
  unfold cell. destruct (nth_error t i) as [r|] eqn:E; [|apply nth_error_None in E; lia].
  destruct (nth_error r c) eqn:E2; eauto. apply nth_error_None in E2.
  rewrite (rectangular_width HR r) in E2; [lia|]. eapply nth_error_In; eauto.
Qed.
