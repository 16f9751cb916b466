From Coq Require Import List Arith Lia NArith Bool.
From Verif Require Import Model.Base Model.Utf.
Import ListNotations.

Lemma len_utf8_pos : forall c, 1 <= len_utf8 c.
Proof. intros c. unfold len_utf8. repeat destruct (_ <? _)%N; lia. Qed.

Lemma byte_len_app : forall a b, byte_len (a ++ b) = byte_len a + byte_len b.
Proof. induction a as [|c a IH]; intros b; cbn; auto. rewrite IH. lia. Qed.

Lemma byte_len_cons : forall c s, byte_len (c :: s) = len_utf8 c + byte_len s.
Proof. reflexivity. Qed.

Lemma drop_bytes_app : forall a b, drop_bytes (byte_len a) (a ++ b) = Some b.
Proof.
  induction a as [|c a IH]; intros b; [now destruct b|].
  cbn [app]. rewrite byte_len_cons. pose proof (len_utf8_pos c).
  remember (len_utf8 c + byte_len a) as n eqn:E. destruct n as [|n]; [lia|].
  cbn [drop_bytes]. rewrite (proj2 (Nat.leb_le _ _)) by lia.
  replace (S n - len_utf8 c) with (byte_len a) by lia. apply IH.
Qed.

Lemma take_bytes_app : forall a b, take_bytes (byte_len a) (a ++ b) = Some a.
Proof.
  induction a as [|c a IH]; intros b; [now destruct b|].
  cbn [app]. rewrite byte_len_cons. pose proof (len_utf8_pos c).
  remember (len_utf8 c + byte_len a) as n eqn:E. destruct n as [|n]; [lia|].
  cbn [take_bytes]. rewrite (proj2 (Nat.leb_le _ _)) by lia.
  replace (S n - len_utf8 c) with (byte_len a) by lia. now rewrite IH.
Qed.

Lemma slice_bytes_app : forall a b c,
  slice_bytes (byte_len a) (byte_len a + byte_len b) (a ++ b ++ c) = Ok b.
Proof.
  intros a b c. unfold slice_bytes. rewrite (proj2 (Nat.leb_le _ _)) by lia.
  rewrite drop_bytes_app. replace (byte_len a + byte_len b - byte_len a) with (byte_len b) by lia.
  now rewrite take_bytes_app.
Qed.

Lemma char_indices_app : forall a b n,
  char_indices n (a ++ b) = char_indices n a ++ char_indices (n + byte_len a) b.
Proof.
  induction a as [|c a IH]; intros b n; cbn; [now rewrite Nat.add_0_r|].
  rewrite IH. do 2 f_equal. f_equal. lia.
Qed.
