(** C16: every table a pipeline produces is rectangular. *)
From Coq Require Import String List ZArith NArith.
From Verif Require Import Model.Base Model.Value Model.TableCrate Model.RowPar Model.TableOps
  Spec.TableSpec Spec.ColSpec Proofs.RectProofs Proofs.RectProofs2 Proofs.Samples.
Import ListNotations.

(** [built t]: some sequence of table commands, with any arguments, schedules and storage states,
    produces [t]; groups inside the output of grp and grp-by count too. *)
Theorem C16_rectangular : forall t, built t -> rectangular t.
Proof. exact built_rectangular. Qed.
Print Assumptions C16_rectangular.

(** So a column found in the header is present in every row. *)
Theorem C16_in_bounds : forall t name c i, built t -> column_named t name c -> i < length t ->
  exists e, cell t i c = Some e.
Proof. exact built_in_bounds. Qed.
Print Assumptions C16_in_bounds.

Example C16_example : exists t, built t /\ column_named t (lit "k") 1 /\ length t = 4.
Proof.
  eexists. split.
  - eapply b_append with (C := unit) (cols := [((fun (c : unit) i => (Ok (num (Z.of_nat i)), c)), lit "k")])
      (init := tt) (scheds := [[(0, 1); (0, 2); (0, 3)]]) (order := [0]).
    + eapply b_range with (a := num 0) (b := num 3). vm_compute. reflexivity.
    + vm_compute. reflexivity.
  - split; [apply column_named_b|]; vm_compute; reflexivity.
Qed.
