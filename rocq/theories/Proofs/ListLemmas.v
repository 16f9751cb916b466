From Coq Require Import List Permutation Sorted Bool Arith Lia NArith.
From Verif Require Import Model.Base Model.TableCrate Model.TableOps.
Import ListNotations.
Set Implicit Arguments.

Lemma takeN_firstn : forall A (l : list A) n, takeN n l = firstn (N.to_nat n) l.
Proof.
  induction l as [|x l IH]; intros n; cbn [takeN]; [now rewrite firstn_nil|].
  destruct (N.eqb_spec n 0) as [->|Hn]; [reflexivity|].
  rewrite IH. replace (N.to_nat n) with (S (N.to_nat (N.pred n))) by lia. reflexivity.
Qed.

Lemma skipN_skipn : forall A (l : list A) n, skipN n l = skipn (N.to_nat n) l.
Proof.
  induction l as [|x l IH]; intros n; cbn [skipN]; [now rewrite skipn_nil|].
  destruct (N.eqb_spec n 0) as [->|Hn]; [reflexivity|].
  rewrite IH. replace (N.to_nat n) with (S (N.to_nat (N.pred n))) by lia. reflexivity.
Qed.

Lemma nthN_nth_error : forall A (l : list A) n, nthN n l = nth_error l (N.to_nat n).
Proof.
  induction l as [|x l IH]; intros n; cbn [nthN]; [now destruct (N.to_nat n)|].
  destruct (N.eqb_spec n 0) as [->|Hn]; [reflexivity|].
  rewrite IH. replace (N.to_nat n) with (S (N.to_nat (N.pred n))) by lia. reflexivity.
Qed.

Lemma retain_from_ext : forall A (f g : nat -> bool) (t : list A) i,
  (forall k, i <= k < i + length t -> f k = g k) -> retain_from f i t = retain_from g i t.
Proof.
  induction t as [|r t IH]; intros i H; cbn [retain_from]; [reflexivity|].
  rewrite (H i) by (cbn; lia).
  rewrite (IH (S i)) by (intros k Hk; apply H; cbn; lia). reflexivity.
Qed.

Lemma retain_from_combine : forall A (f : nat -> bool) (t : list A) i,
  retain_from f i t = map snd (filter (fun p => f (fst p)) (combine (seq i (length t)) t)).
Proof.
  induction t as [|r t IH]; intros i; cbn; [reflexivity|].
  rewrite IH. destruct (f i); reflexivity.
Qed.

Lemma retain_le : forall A (t : list A) i n,
  retain_from (fun k => k <=? n) i t = firstn (S n - i) t.
Proof.
  induction t as [|r t IH]; intros i n; cbn [retain_from]; [now rewrite firstn_nil|].
  destruct (Nat.leb_spec i n) as [H|H].
  - rewrite IH. replace (S n - i) with (S (S n - S i)) by lia. reflexivity.
  - rewrite IH. replace (S n - i) with 0 by lia. replace (S n - S i) with 0 by lia. reflexivity.
Qed.

Lemma retain_gt : forall A (t : list A) i n,
  retain_from (fun k => n <? k) i t = skipn (S n - i) t.
Proof.
  induction t as [|r t IH]; intros i n; cbn [retain_from]; [now rewrite skipn_nil|].
  destruct (Nat.ltb_spec n i) as [H|H].
  - rewrite IH. replace (S n - i) with 0 by lia. replace (S n - S i) with 0 by lia. reflexivity.
  - rewrite IH. replace (S n - i) with (S (S n - S i)) by lia. reflexivity.
Qed.

Lemma set_nth_length : forall A (l : list A) i x, length (set_nth i x l) = length l.
Proof. induction l; intros [|i] x; cbn; auto. Qed.

Lemma nth_error_set_nth : forall A (l : list A) i j x,
  nth_error (set_nth i x l) j =
  if Nat.eqb i j then (match nth_error l j with Some _ => Some x | None => None end)
  else nth_error l j.
Proof.
  induction l as [|y l IH]; intros [|i] [|j] x; cbn; auto.
  - now destruct (Nat.eqb i j).
Qed.

Lemma remove_nth_length : forall A (l : list A) i, i < length l -> length (remove_nth i l) = length l - 1.
Proof.
  induction l as [|x l IH]; intros [|i] H; cbn in *; try lia.
  rewrite IH by lia. lia.
Qed.

Lemma nth_error_remove_nth : forall A (l : list A) i j,
  nth_error (remove_nth i l) j = if j <? i then nth_error l j else nth_error l (S j).
Proof.
  induction l as [|x l IH]; intros i j.
  - destruct i; cbn [remove_nth]; destruct (j <? _); now rewrite ?nth_error_nil; destruct j.
  - destruct i as [|i]; cbn [remove_nth].
    + reflexivity.
    + destruct j as [|j]; cbn [nth_error]; [reflexivity|].
      rewrite IH. change (S j <? S i) with (j <? i). destruct (j <? i); reflexivity.
Qed.

Lemma nth_error_seq : forall n i k, nth_error (seq i n) k = if k <? n then Some (i + k) else None.
Proof.
  induction n as [|n IH]; intros i k; cbn [seq]; [now destruct k|].
  destruct k as [|k]; cbn [nth_error]; [cbn; f_equal; lia|].
  rewrite IH. change (S k <? S n) with (k <? n). destruct (k <? n); f_equal; lia.
Qed.

Lemma nth_error_map' : forall A B (f : A -> B) l i,
  nth_error (map f l) i = option_map f (nth_error l i).
Proof. intros; apply nth_error_map. Qed.

Lemma nth_error_repeat_lt : forall A (x : A) n i, i < n -> nth_error (repeat x n) i = Some x.
Proof. induction n; intros [|i] H; cbn; try lia; auto. apply IHn; lia. Qed.

Lemma nth_error_repeat : forall A (x : A) n i,
  nth_error (repeat x n) i = if i <? n then Some x else None.
Proof.
  intros. destruct (Nat.ltb_spec i n); [now apply nth_error_repeat_lt|].
  apply nth_error_None. now rewrite repeat_length.
Qed.

Lemma nth_error_ext : forall A (l m : list A), (forall i, nth_error l i = nth_error m i) -> l = m.
Proof.
  induction l as [|x l IH]; intros [|y m] H; auto.
  - specialize (H 0); discriminate.
  - specialize (H 0); discriminate.
  - pose proof (H 0) as H0; cbn in H0; injection H0 as ->.
    f_equal. apply IH. intros i. exact (H (S i)).
Qed.

Lemma nth_error_nth_lt : forall A (l : list A) i d, i < length l -> nth_error l i = Some (nth i l d).
Proof. intros; now apply nth_error_nth'. Qed.

Lemma nth_error_app : forall A (l m : list A) i,
  nth_error (l ++ m) i = if i <? length l then nth_error l i else nth_error m (i - length l).
Proof.
  intros. destruct (Nat.ltb_spec i (length l)).
  - now apply nth_error_app1.
  - now apply nth_error_app2.
Qed.

Lemma nth_error_combine : forall A B (l : list A) (m : list B) i,
  nth_error (combine l m) i =
  match nth_error l i, nth_error m i with Some a, Some b => Some (a, b) | _, _ => None end.
Proof.
  induction l as [|x l IH]; intros [|y m] [|i]; cbn; auto.
  now destruct (nth_error l i).
Qed.

Lemma rmapM_ok_length : forall A B (f : A -> res B) l r, rmapM f l = Ok r -> length r = length l.
Proof.
  induction l as [|a l IH]; cbn; intros r H; [now inversion H|].
  destruct (f a); cbn in H; try discriminate.
  destruct (rmapM f l); cbn in H; try discriminate.
  inversion H; cbn; f_equal; auto.
Qed.

Lemma rmapM_ok_iff : forall A B (f : A -> res B) l r,
  rmapM f l = Ok r <-> Forall2 (fun a b => f a = Ok b) l r.
Proof.
  induction l as [|a l IH]; cbn; intros r; split; intros H.
  - inversion H; constructor.
  - inversion H; reflexivity.
  - destruct (f a) eqn:E; cbn in H; try discriminate.
    destruct (rmapM f l) eqn:E2; cbn in H; try discriminate.
    inversion H; subst. constructor; auto. now apply IH.
  - inversion H; subst. rewrite H2. cbn. apply IH in H4. rewrite H4. reflexivity.
Qed.

Lemma Forall2_nth_error : forall A B (P : A -> B -> Prop) l m,
  Forall2 P l m -> forall i a, nth_error l i = Some a -> exists b, nth_error m i = Some b /\ P a b.
Proof.
  induction 1; intros [|i] a0 Ha; cbn in *; try discriminate.
  - injection Ha as <-. eauto.
  - eauto.
Qed.

Lemma Forall2_length' : forall A B (P : A -> B -> Prop) l m, Forall2 P l m -> length l = length m.
Proof. induction 1; cbn; auto. Qed.

Lemma nth_error_firstn_lt : forall A (l : list A) n i, i < n -> nth_error (firstn n l) i = nth_error l i.
Proof.
  induction l as [|a l IH]; intros [|n] [|i] H; cbn; auto; try lia. apply IH. lia.
Qed.
