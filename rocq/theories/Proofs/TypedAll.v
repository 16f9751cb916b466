(** Each op is type sound. *)
From Coq Require Import String List ZArith NArith Bool Lia.
From Verif Require Import Model.Base Model.Value Model.TableCrate Model.RowPar Model.TableOps Model.Tuple Model.Exec Model.Intrinsics
  Model.Compare Model.Typed Spec.TableSpec Spec.SortSpec Spec.TypeSpec Spec.ExecSpec Spec.CompareSpec Spec.TypingSpec Proofs.RegistryProofs
  Proofs.LinkProofs Proofs.ListLemmas Proofs.CompareProofs Proofs.TableBasics Proofs.RectProofs Proofs.TypedProofs Proofs.TypedTables
  Proofs.TypedTables2 Proofs.TypedOps Proofs.TypedSound Proofs.TypedMore.
Import ListNotations.

Section AllOps.
Variable W : Type.
Variable U : ty -> Prop.
Hypothesis HU : universe U.
Variable Sg : nat -> ty.
Variable L : nat.
Local Notation step := (step W).
Local Notation hold := (hold W).
Local Notation node := (node W).
Local Notation is_a := (is_a U).
Local Notation step_ok := (step_ok W U Sg L).
Local Notation node_ok := (node_ok W U Sg L).
Local Notation plain := (plain W).

(** ** all of them *)
Theorem op_sound p (D : slots) in_ty args s t : proper_prim p -> U in_ty -> Forall (node_ok D) args ->
  (forall i n, nth_error args i = Some n -> injects p i = false -> n_binder n = None) ->
  op_of p in_ty args = Ok (s, t) -> U t -> step_ok D in_ty s t D.
Proof.
  intros Pp Ui Hn Hp H Ut.
  assert (All : (forall i, injects p i = false) -> Forall plain args).
  { intro N. apply Forall_forall. intros n Hin. destruct (In_nth_error _ _ Hin) as [i Hi]. eapply Hp; eauto. }
  destruct p; cbn [op_of] in H.
  - exact (and_sound W U HU Sg L D in_ty args s t Ui Hn (All (fun _ => eq_refl)) H Ut).
  - exact (or_sound W U HU Sg L D in_ty args s t Ui Hn (All (fun _ => eq_refl)) H Ut).
  - exact (not_sound W U HU Sg L D in_ty args s t Ui Hn (All (fun _ => eq_refl)) H Ut).
  - exact (if_sound W U HU Sg L D in_ty args s t Ui Hn (All (fun _ => eq_refl)) H Ut).
  - exact (nums_sound W U HU Sg L _ D in_ty args s t Ui Hn (All (fun _ => eq_refl)) H Ut).
  - exact (nums_sound W U HU Sg L _ D in_ty args s t Ui Hn (All (fun _ => eq_refl)) H Ut).
  - exact (cmp_sound W U HU Sg L D in_ty args s t Ui Hn (All (fun _ => eq_refl)) H Ut).
  - exact (eq_sound W U HU Sg L D in_ty args s t Ui Hn (All (fun _ => eq_refl)) H Ut).
  - exact (nums_sound W U HU Sg L _ D in_ty args s t Ui Hn (All (fun _ => eq_refl)) H Ut).
  - exact (strs_sound W U HU Sg L _ D in_ty args s t Ui Hn (All (fun _ => eq_refl)) H Ut).
  - exact (num1_sound W U HU Sg L _ D in_ty args s t Ui Hn (All (fun _ => eq_refl)) H Ut).
  - exact (num_test_sound W U HU Sg L _ D in_ty args s t Ui Hn (All (fun _ => eq_refl)) H Ut).
  - exact (root_sound W U HU Sg L _ D in_ty args s t Ui Hn (All (fun _ => eq_refl)) H Ut).
  - exact (len_str_sound W U HU Sg L D in_ty args s t Ui Hn (All (fun _ => eq_refl)) H Ut).
  - exact (len_tab_sound W U HU Sg L _ D in_ty args s t Ui Hn (All (fun _ => eq_refl)) H Ut).
  - exact (nth_str_sound W U HU Sg L D in_ty args s t Ui Hn (All (fun _ => eq_refl)) H Ut).
  - exact (take_str_sound W U HU Sg L D in_ty args s t Ui Hn (All (fun _ => eq_refl)) H Ut).
  - exact (skip_str_sound W U HU Sg L D in_ty args s t Ui Hn (All (fun _ => eq_refl)) H Ut).
  - exact (take_tab_sound W U HU Sg L _ D in_ty args s t Ui Hn (All (fun _ => eq_refl)) H Ut).
  - exact (skip_tab_sound W U HU Sg L _ D in_ty args s t Ui Hn (All (fun _ => eq_refl)) H Ut).
  - exact (rev_str_sound W U HU Sg L D in_ty args s t Ui Hn (All (fun _ => eq_refl)) H Ut).
  - exact (rev_tab_sound W U HU Sg L _ D in_ty args s t Ui Hn (All (fun _ => eq_refl)) H Ut).
  - exact (dedup_str_sound W U HU Sg L D in_ty args s t Ui Hn (All (fun _ => eq_refl)) H Ut).
  - exact (range_to_sound W U HU Sg L D in_ty args s t Ui Hn (All (fun _ => eq_refl)) H Ut).
  - exact (range_sound W U HU Sg L D in_ty args s t Ui Hn (All (fun _ => eq_refl)) H Ut).
  - exact (table_sound W U HU Sg L D in_ty args s t Ui Hn (All (fun _ => eq_refl)) H Ut).
  - exact (in_sound W U HU Sg L D in_ty args s t Ui Hn (All (fun _ => eq_refl)) H Ut).
  - exact (tuple_sound W U HU Sg L D in_ty args s t Ui Hn (All (fun _ => eq_refl)) H Ut).
  - exact (init_sound W U HU Sg L _ _ D in_ty args s t Ui Hn (All (fun _ => eq_refl)) H Ut).
  - exact (get_sound W U HU Sg L D in_ty args s t Ui Hn (All (fun _ => eq_refl)) H Ut).
  - exact (get_row_sound W U HU Sg L _ D in_ty args s t Ui Hn (All (fun _ => eq_refl)) H Ut).
  - exact (get_default_sound W U HU Sg L D in_ty args s t Ui Hn (All (fun _ => eq_refl)) H Ut).
  - exact (dot_sound W U HU Sg L _ D in_ty args s t Ui Hn (All (fun _ => eq_refl)) H Ut).
  - exact (nth_tab_sound W U HU Sg L D in_ty args s t Ui Hn (All (fun _ => eq_refl)) H Ut).
  - exact (filter_tab_sound W U HU Sg L D in_ty args s t Ui Hn (All (fun _ => eq_refl)) H Ut).
  - exact (append_sound W U HU Sg L _ D in_ty args s t Ui Hn (All (fun _ => eq_refl)) H Ut).
  - exact (append_row_sound W U HU Sg L D in_ty args s t Ui Hn (All (fun _ => eq_refl)) H Ut).
  - apply (fold_sound W U HU Sg L D in_ty args s t); auto. intros n E. exact (Hp 0 n E eq_refl).
  - apply (fold_while_sound W U HU Sg L D in_ty args s t); auto. intros n E. exact (Hp 0 n E eq_refl).
  - exact (dedup_tab_sound W U HU Sg L  D in_ty args s t Ui Hn (All (fun _ => eq_refl)) H Ut).
  - exact (sort_sound W U HU Sg L _ Pp D in_ty args s t Ui Hn (All (fun _ => eq_refl)) H Ut).
  - exact (pick_sound W U HU Sg L _ _ D in_ty args s t Ui Hn (All (fun _ => eq_refl)) H Ut).
  - exact (grp_sound W U HU Sg L _ D in_ty args s t Ui Hn (All (fun _ => eq_refl)) H Ut).
  - exact (filter_col_sound W U HU Sg L _ D in_ty args s t Ui Hn (All (fun _ => eq_refl)) H Ut).
  - exact (filter_cols_sound W U HU Sg L  D in_ty args s t Ui Hn (All (fun _ => eq_refl)) H Ut).
  - exact (filter_str_sound W U HU Sg L  D in_ty args s t Ui Hn (All (fun _ => eq_refl)) H Ut).
  - apply (map_sound W U HU Sg L force flag D in_ty args s t); auto. intros n E. exact (Hp 0 n E eq_refl).
  - exact (ren_sound W U HU Sg L  D in_ty args s t Ui Hn (All (fun _ => eq_refl)) H Ut).
  - exact (ren_with_sound W U HU Sg L _ D in_ty args s t Ui Hn (All (fun _ => eq_refl)) H Ut).
  - exact (add_tab_sound W U HU Sg L _ _ Pp D in_ty args s t Ui Hn (All (fun _ => eq_refl)) H Ut).
  - exact (grp_by_sound W U HU Sg L  D in_ty args s t Ui Hn (All (fun _ => eq_refl)) H Ut).
  - destruct Pp.
  - exact (to_str_bool_sound W U HU Sg L  D in_ty args s t Ui Hn (All (fun _ => eq_refl)) H Ut).
  - exact (to_str_num_sound W U HU Sg L _ _ D in_ty args s t Ui Hn (All (fun _ => eq_refl)) H Ut).
  - exact (to_str_str_sound W U HU Sg L  D in_ty args s t Ui Hn (All (fun _ => eq_refl)) H Ut).
  - exact (to_str_sound W U HU Sg L _ D in_ty args s t Ui Hn (All (fun _ => eq_refl)) H Ut).
  - exact (ls_tab_sound W U HU Sg L  D in_ty args s t Ui Hn (All (fun _ => eq_refl)) H Ut).
Qed.
End AllOps.
