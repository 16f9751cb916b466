From Coq Require Import List Permutation Sorted Bool Arith Lia NArith ZArith.
From Verif Require Import Model.Base Model.Value Model.TableCrate Model.RowPar Model.TableOps
  Spec.TableSpec Proofs.ListLemmas.
Import ListNotations.
Set Implicit Arguments.

Lemma rectangular_cons : forall (r : row) t,
  rectangular (r :: t) <-> width_is (length r) t.
Proof.
  intros r t; split.
  - intros H s Hs. apply H; cbn; auto.
  - intros H a b Ha Hb.
    assert (forall s, In s (r :: t) -> length s = length r) as G.
    { intros s [<-|Hs]; auto. }
    rewrite (G a Ha), (G b Hb). reflexivity.
Qed.

Lemma rectangular_width : forall t : table, rectangular t -> width_is (cols_len t) t.
Proof.
  intros [|r t] H s Hs; [easy|]. cbn. apply H; cbn; auto.
Qed.

Lemma width_rectangular : forall w (t : table), width_is w t -> rectangular t.
Proof. intros w t H r s Hr Hs. rewrite (H r Hr), (H s Hs). reflexivity. Qed.

Lemma max_width_cons : forall r (t : table), max_width (r :: t) = Nat.max (length r) (max_width t).
Proof. reflexivity. Qed.

Lemma max_width_le : forall (t : table) w, (forall r, In r t -> length r <= w) -> max_width t <= w.
Proof.
  induction t as [|r t IH]; intros w H; [cbn; lia|]. rewrite max_width_cons. cbn in H.
  assert (length r <= w) by auto. assert (max_width t <= w) by (apply IH; auto). lia.
Qed.

Lemma max_width_ge : forall (t : table) r, In r t -> length r <= max_width t.
Proof.
  induction t as [|s t IH]; intros r H; [easy|]. rewrite max_width_cons.
  destruct H as [->|H]; [lia|]. specialize (IH r H). lia.
Qed.

Lemma max_width_uniform : forall (t : table) w,
  width_is w t -> t <> [] -> max_width t = w.
Proof.
  intros [|r t] w H N; [congruence|].
  pose proof (H r (or_introl eq_refl)) as Hr.
  assert (max_width (r :: t) <= w).
  { apply max_width_le. intros s Hs. rewrite (H s Hs). lia. }
  pose proof (max_width_ge (r :: t) r (or_introl eq_refl)). lia.
Qed.

Lemma pad_length : forall w r, length r <= w -> length (pad w r) = w.
Proof. intros. unfold pad. rewrite app_length, repeat_length. lia. Qed.

Lemma pad_id : forall w r, w <= length r -> pad w r = r.
Proof. intros. unfold pad. replace (w - length r) with 0 by lia. cbn. apply app_nil_r. Qed.

Lemma table_from_rect : forall t, rectangular t -> table_from t = t.
Proof.
  intros t H. destruct t as [|r t0] eqn:E; [reflexivity|]. rewrite <- E in *.
  unfold table_from.
  assert (max_width t = cols_len t) as W.
  { apply max_width_uniform; [now apply rectangular_width|subst; discriminate]. }
  transitivity (map (fun x => x) t); [|apply map_id]. apply map_ext_in.
  intros s Hs. apply pad_id. rewrite W. rewrite (rectangular_width H s Hs). lia.
Qed.

Lemma table_from_width : forall t, width_is (max_width t) (table_from t).
Proof.
  intros t r H. unfold table_from in H. apply in_map_iff in H.
  destruct H as (s & <- & Hs). apply pad_length. now apply max_width_ge.
Qed.

Lemma table_from_rectangular : forall t, rectangular (table_from t).
Proof. intros; eapply width_rectangular; apply table_from_width. Qed.

Lemma table_from_length : forall t, length (table_from t) = length t.
Proof. intros; unfold table_from; now rewrite map_length. Qed.

Lemma rectangular_sub : forall (t u : table),
  rectangular t -> (forall r, In r u -> In r t) -> rectangular u.
Proof. intros t u H S r s Hr Hs. apply H; auto. Qed.

Lemma retain_from_in : forall A f (t : list A) i r, In r (retain_from f i t) -> In r t.
Proof.
  induction t as [|x t IH]; cbn; intros i r H; [easy|].
  destruct (f i); cbn in *; intuition eauto.
Qed.

Lemma firstn_in : forall A n (l : list A) x, In x (firstn n l) -> In x l.
Proof. intros. rewrite <- (firstn_skipn n l). apply in_or_app; auto. Qed.
Lemma skipn_in : forall A n (l : list A) x, In x (skipn n l) -> In x l.
Proof. intros. rewrite <- (firstn_skipn n l). apply in_or_app; auto. Qed.

(** ** take and skip *)

Lemma take_owned_eq : forall n (t : table),
  retain_rows (fun i => Nat.eqb i 0 || (N.of_nat i <=? n)%N) t =
  header t ++ firstn (N.to_nat n) (data t).
Proof.
  intros n [|h d]; cbn; [now rewrite firstn_nil|].
  f_equal. rewrite (@retain_from_ext _ _ (fun k => k <=? N.to_nat n)).
  - rewrite retain_le. f_equal. lia.
  - intros k Hk. destruct k; [lia|]. cbn [Nat.eqb orb].
    destruct (N.leb_spec (N.of_nat (S k)) n), (Nat.leb_spec (S k) (N.to_nat n)); auto; lia.
Qed.

Lemma skip_owned_eq : forall n (t : table),
  retain_rows (fun i => Nat.eqb i 0 || (n <? N.of_nat i)%N) t =
  header t ++ skipn (N.to_nat n) (data t).
Proof.
  intros n [|h d]; cbn; [now rewrite skipn_nil|].
  f_equal. rewrite (@retain_from_ext _ _ (fun k => N.to_nat n <? k)).
  - rewrite retain_gt. f_equal. lia.
  - intros k Hk. destruct k; [lia|]. cbn [Nat.eqb orb].
    destruct (N.ltb_spec n (N.of_nat (S k))), (Nat.ltb_spec (N.to_nat n) (S k)); auto; lia.
Qed.

Lemma add_rows_nil_rect : forall t u : table,
  rectangular t -> (forall r, In r u -> In r t) -> add_rows [] u = u.
Proof.
  intros t u H S. unfold add_rows. cbn. apply table_from_rect. eapply rectangular_sub; eauto.
Qed.

Lemma take_shared_eq : forall n (t : table), rectangular t ->
  add_rows [] (firstn 1 t ++ takeN n (skipn 1 t)) = header t ++ firstn (N.to_nat n) (data t).
Proof.
  intros n t H. rewrite takeN_firstn.
  assert (firstn 1 t ++ firstn (N.to_nat n) (skipn 1 t) =
          header t ++ firstn (N.to_nat n) (data t)) as E.
  { destruct t; reflexivity. }
  rewrite E. apply add_rows_nil_rect with t; auto.
  intros r Hr. apply in_app_or in Hr. destruct t as [|h d]; cbn in *.
  - rewrite firstn_nil in Hr. tauto.
  - destruct Hr as [[<-|[]]|Hr]; auto. right. eapply firstn_in; eauto.
Qed.

Lemma skip_shared_eq : forall n (t : table), rectangular t ->
  add_rows [] (firstn 1 t ++ skipN (n + 1) t) = header t ++ skipn (N.to_nat n) (data t).
Proof.
  intros n t H. rewrite skipN_skipn.
  assert (firstn 1 t ++ skipn (N.to_nat (n + 1)) t =
          header t ++ skipn (N.to_nat n) (data t)) as E.
  { destruct t as [|h d]; cbn; [now rewrite !skipn_nil|].
    replace (N.to_nat (n + 1)) with (S (N.to_nat n)) by lia. reflexivity. }
  rewrite E. apply add_rows_nil_rect with t; auto.
  intros r Hr. apply in_app_or in Hr. destruct t as [|h d]; cbn in *.
  - rewrite skipn_nil in Hr. tauto.
  - destruct Hr as [[<-|[]]|Hr]; auto. right. eapply skipn_in; eauto.
Qed.

Lemma take_table_ok : forall owned v n (t : table), rectangular t ->
  cnv_num_to_usize v = Ok n ->
  take_table owned v t = Ok (header t ++ firstn (N.to_nat n) (data t)).
Proof.
  intros owned v n t H Hv. unfold take_table. rewrite Hv. cbn [rbind].
  destruct owned; f_equal; [apply take_owned_eq|now apply take_shared_eq].
Qed.

Lemma skip_table_ok : forall checked owned v n (t : table), rectangular t ->
  cnv_num_to_usize v = Ok n -> (n < usize_max)%N ->
  skip_table checked owned v t = Ok (header t ++ skipn (N.to_nat n) (data t)).
Proof.
  intros checked owned v n t H Hv Hn. unfold skip_table. rewrite Hv. cbn [rbind].
  destruct owned.
  - f_equal; apply skip_owned_eq.
  - unfold usize_succ. destruct (N.ltb_spec n usize_max); [|lia]. cbn [rbind].
    f_equal. now apply skip_shared_eq.
Qed.

Lemma header_data : forall (t : table), header t ++ data t = t.
Proof. destruct t; reflexivity. Qed.
Lemma header_app_header : forall (t : table) l, t <> [] -> header (header t ++ l) = header t.
Proof. destruct t; cbn; congruence. Qed.
Lemma data_app : forall (t : table) l, (t = [] -> l = []) -> data (header t ++ l) = l.
Proof. destruct t; cbn; auto. intros l H; rewrite H; auto. Qed.
