(** Concrete tables and checks used by the examples. *)
From Coq Require Import String List Bool Arith Lia NArith ZArith Permutation.
From Verif Require Import Model.Base Model.Value Model.TableCrate Model.RowPar Model.TableOps
  Spec.TableSpec Spec.ColSpec Spec.ParSpec Spec.OpsSpec Proofs.ListLemmas Proofs.TableBasics Proofs.ColLemmas.
Import ListNotations.

Definition S' (s : string) : ent := EObj (VStr (lit s)).
Definition n' (z : Z) : ent := ENum (num_of_Z z).
Definition num (z : Z) : value := VNum (num_of_Z z).

(** Three data rows, a repeated key, a nil cell. *)
Definition stock : table :=
  [ [S' "name"; S' "qty"];
    [S' "pear"; n' 7];
    [S' "fig";  n' 3];
    [S' "pear"; ENil] ].

Definition rect_b (t : table) : bool := forallb (fun r => Nat.eqb (length r) (cols_len t)) t.
Lemma rect_b_ok : forall t, rect_b t = true -> rectangular t.
Proof.
  intros t H. apply (@width_rectangular (cols_len t)). intros r Hr.
  unfold rect_b in H. rewrite forallb_forall in H. apply Nat.eqb_eq. now apply H.
Qed.

Lemma stock_rect : rectangular stock.
Proof. apply rect_b_ok. reflexivity. Qed.

(** Rows 3 and 1 done by worker 0, row 2 by worker 1. *)
Definition stock_sched : list (nat * nat) := [(0, 3); (1, 2); (0, 1)].
Lemma stock_sched_complete : complete_schedule (length stock) stock_sched.
Proof. unfold complete_schedule. cbn. change [3;2;1] with (rev [1;2;3]). symmetry. apply Permutation_rev. Qed.

Lemma column_named_b : forall t n c, col_idx t n = Ok c -> column_named t n c.
Proof. intros. now apply col_idx_iff. Qed.
Lemma no_column_b : forall t n e, col_idx t n = Err e -> no_column_named t n.
Proof. intros. eapply col_idx_err; eauto. Qed.

Lemma pure_row_function : forall V C (g : nat -> res V) (c : C), row_function (fun c i => (g i, c)) c g.
Proof. intros V C g c. exists (fun _ => True). cbn. auto. Qed.
