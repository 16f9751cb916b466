(** What table commands put into tables. *)
From Coq Require Import String List ZArith NArith Bool Lia.
From Verif Require Import Model.Base Model.Value Model.TableCrate Model.RowPar Model.TableOps Spec.TableSpec Proofs.RectProofs.
Import ListNotations.

Section Cells.
Variable P : value -> Prop.
Definition ent_ok (e : ent) : Prop := match e with EObj v => P v | _ => True end.
Definition row_ok (r : row) : Prop := Forall ent_ok r.
Definition cells_ok (t : table) : Prop := Forall row_ok t.

Lemma cells_all t : cells_ok t <-> forall r v, In r t -> In (EObj v) r -> P v.
Proof.
  unfold cells_ok, row_ok. split.
  - intros H r v Hr Hv. rewrite Forall_forall in H. specialize (H r Hr). rewrite Forall_forall in H. exact (H _ Hv).
  - intros H. apply Forall_forall. intros r Hr. apply Forall_forall. intros [|n|v] He; cbn; auto. eauto.
Qed.
Lemma cells_sub t u : (forall r, In r u -> In r t) -> cells_ok t -> cells_ok u.
Proof. unfold cells_ok. rewrite !Forall_forall. auto. Qed.
Lemma pad_ok w r : row_ok r -> row_ok (pad w r).
Proof. intro H. apply Forall_app. split; auto. apply Forall_forall. intros e He. apply repeat_spec in He. subst. exact I. Qed.
Lemma from_ok t : cells_ok t -> cells_ok (table_from t).
Proof. unfold cells_ok, table_from. intro H. apply Forall_map. eapply Forall_impl; [|exact H]. intros r Hr. apply pad_ok; auto. Qed.
Lemma retain_sub {A} f i (t : list A) r : In r (retain_from f i t) -> In r t.
Proof. revert i. induction t as [|x t IH]; intros i; cbn; auto. destruct (f i); cbn; intuition eauto. Qed.
Lemma takeN_sub {A} n (l : list A) x : In x (takeN n l) -> In x l.
Proof. revert n. induction l as [|y l IH]; intros n; cbn; auto. destruct (n =? 0)%N; cbn; [tauto|]. intuition eauto. Qed.
Lemma skipN_sub {A} n (l : list A) x : In x (skipN n l) -> In x l.
Proof. revert n. induction l as [|y l IH]; intros n; cbn; auto. destruct (n =? 0)%N; cbn; auto. intuition eauto. Qed.
Lemma firstn_sub {A} n (l : list A) x : In x (firstn n l) -> In x l.
Proof. intro H. rewrite <- (firstn_skipn n l). apply in_or_app. auto. Qed.
Lemma skipn_sub {A} n (l : list A) x : In x (skipn n l) -> In x l.
Proof. intro H. rewrite <- (firstn_skipn n l). apply in_or_app. auto. Qed.

Lemma retain_rows_ok f t : cells_ok t -> cells_ok (retain_rows f t).
Proof. apply cells_sub. intros r Hr. eapply retain_sub; eauto. Qed.
Lemma take_cells owned n t t' : cells_ok t -> take_table owned n t = Ok t' -> cells_ok t'.
Proof.
  unfold take_table. intros C H. destruct (cnv_num_to_usize n); try discriminate. cbn [rbind] in H. destruct owned; injection H as <-.
  - apply retain_rows_ok. exact C.
  - apply from_ok. eapply cells_sub; [|exact C]. cbn [app]. intros r Hr. apply in_app_or in Hr. destruct Hr as [Hr|Hr].
    + apply (firstn_sub 1). exact Hr.
    + apply takeN_sub in Hr. eapply (@skipn_sub _ 1); eauto.
Qed.
Lemma skip_cells checked owned n t t' : cells_ok t -> skip_table checked owned n t = Ok t' -> cells_ok t'.
Proof.
  unfold skip_table. intros C H. destruct (cnv_num_to_usize n) as [n'| |]; try discriminate. cbn [rbind] in H. destruct owned.
  - injection H as <-. apply retain_rows_ok. exact C.
  - destruct (usize_succ checked n'); try discriminate. cbn [rbind] in H. injection H as <-.
    apply from_ok. eapply cells_sub; [|exact C]. cbn [app]. intros r Hr. apply in_app_or in Hr. destruct Hr as [Hr|Hr].
    + apply (firstn_sub 1). exact Hr.
    + eapply skipN_sub; eauto.
Qed.
Lemma rev_cells cols t : cells_ok t -> cells_ok (rev_table cols t).
Proof.
  intros C. unfold rev_table. destruct cols.
  - unfold reverse_cols, cells_ok. apply Forall_map. eapply Forall_impl; [|exact C]. intros r Hr. apply Forall_rev. exact Hr.
  - destruct t as [|h d]; auto. inversion C; subst. constructor; auto. apply Forall_rev. auto.
Qed.
Lemma retain_keep_cells owned t keep t' : cells_ok t -> retain_keep_rows owned t keep = Ok t' -> cells_ok t'.
Proof.
  unfold retain_keep_rows. intros C H. destruct (forallb _ keep); [injection H as <-; auto|]. destruct (_ <? _); [discriminate|].
  destruct owned; injection H as <-; [apply retain_rows_ok; auto|]. apply from_ok. eapply cells_sub; [|exact C]. intros r. apply retain_sub.
Qed.
Lemma range_cells a b t : range a b = Ok t -> (forall s, P (VStr s)) -> cells_ok t.
Proof.
  unfold range. intros H S. destruct (cnv_num_to_u128 a); try discriminate. cbn [rbind] in H. destruct (cnv_num_to_u128 b); try discriminate.
  cbn [rbind] in H. injection H as <-. apply from_ok. constructor; [repeat constructor; apply S|].
  apply Forall_forall. intros r Hr. apply in_map_iff in Hr. destruct Hr as (k & <- & _). repeat constructor.
Qed.
Lemma val_ent_ok v : P v -> ent_ok (ent_of_val v).
Proof. destruct v; cbn; auto. Qed.
Lemma add_cols_cells t cs : cells_ok t -> Forall row_ok cs -> cells_ok (add_cols t cs).
Proof.
  intros C F. unfold add_cols. apply Forall_forall. intros r Hr. apply in_map_iff in Hr. destruct Hr as (i & <- & _).
  apply Forall_app. split.
  - apply pad_ok. destruct (nth_in_or_default i t []) as [H| ->]; [|constructor]. unfold cells_ok in C. rewrite Forall_forall in C. auto.
  - apply Forall_forall. intros e He. apply in_map_iff in He. destruct He as (c & <- & Hc). rewrite Forall_forall in F. specialize (F c Hc).
    destruct (nth_in_or_default i c ENil) as [H| ->]; [|exact I]. unfold row_ok in F. rewrite Forall_forall in F. auto.
Qed.
Lemma map_ok_id {A} (l : list A) : rmapM (fun r : res A => r) (map (fun x => Ok x) l) = Ok l.
Proof. induction l as [|x l IH]; cbn; auto. rewrite IH. reflexivity. Qed.
Lemma table_ctor_cells vs : Forall P vs -> exists t, table_ctor (map (fun x => Ok x) vs) = Ok t /\ cells_ok t.
Proof.
  intro F. unfold table_ctor. rewrite map_ok_id. cbn [rbind]. eexists. split; [reflexivity|].
  assert (G : forall t, cells_ok t -> cells_ok (fold_left (fun t v => add_col t [ent_of_val v]) vs t)).
  { induction F as [|v vs Hv F IH]; intros t C; cbn; auto. apply IH. apply add_cols_cells; auto. repeat constructor. apply val_ent_ok. auto. }
  apply G. constructor.
Qed.
Lemma name_nils_ok h : row_ok h -> (forall s, P (VStr s)) -> forall i, row_ok (name_nils i h).
Proof.
  intros H S. induction H as [|e h He H IH]; intros i; cbn; [constructor|]. destruct e; constructor; cbn; auto. apply IH. apply IH. apply IH.
Qed.
Lemma append_row_cells vs t : Forall P vs -> cells_ok t -> (forall s, P (VStr s)) ->
  exists t', append_row (map (fun x => Ok x) vs) t = Ok t' /\ cells_ok t'.
Proof.
  intros F C S. unfold append_row. rewrite map_ok_id. cbn [rbind].
  assert (K : cells_ok (add_row t (map ent_of_val vs))).
  { apply from_ok. apply Forall_app. split; auto. repeat constructor. apply Forall_map. eapply Forall_impl; [|exact F]. intros. apply val_ent_ok. auto. }
  destruct (add_row t (map ent_of_val vs)) as [|h d]; [eexists; split; [reflexivity|constructor]|].
  inversion K; subst. eexists. split; [reflexivity|]. constructor; auto. apply name_nils_ok; auto.
Qed.
End Cells.
