From Coq Require Import List Arith Lia Wellfounded.
Import ListNotations.

(** The lexicographic order of lists of the same length. *)
Inductive lex : list nat -> list nat -> Prop :=
| lex_here : forall a b l m, a < b -> length l = length m -> lex (a :: l) (b :: m)
| lex_next : forall a l m, lex l m -> lex (a :: l) (a :: m).
Definition lexeq (l m : list nat) : Prop := l = m \/ lex l m.

Lemma lex_length : forall l m, lex l m -> length l = length m.
Proof. induction 1; cbn; congruence. Qed.
Lemma lex_trans : forall a b, lex a b -> forall c, lex b c -> lex a c.
Proof.
  induction 1 as [x y l m L E|x l m H IH]; intros c K; inversion K; subst.
  - constructor; [lia|congruence].
  - constructor; [auto|]. rewrite E. now apply lex_length.
  - constructor; [auto|]. erewrite lex_length by exact H. auto.
  - constructor 2. auto.
Qed.
Lemma lexeq_refl : forall a, lexeq a a.
Proof. now left. Qed.
Lemma lexeq_trans : forall a b c, lexeq a b -> lexeq b c -> lexeq a c.
Proof. intros a b c [->|H] [->|K]; try (now left); right; eauto using lex_trans. Qed.
Lemma lex_lexeq : forall a b c, lex a b -> lexeq b c -> lex a c.
Proof. intros a b c H [->|K]; eauto using lex_trans. Qed.
Lemma lexeq_lex : forall a b c, lexeq a b -> lex b c -> lex a c.
Proof. intros a b c [->|H] K; eauto using lex_trans. Qed.
Lemma lexeq_length : forall a b, lexeq a b -> length a = length b.
Proof. intros a b [->|H]; auto using lex_length. Qed.
Lemma lex_app : forall a b, lex a b -> forall l m, length l = length m -> lex (a ++ l) (b ++ m).
Proof.
  induction 1 as [x y l m L E|x l m H IH]; intros l' m' E'; cbn; [constructor 1; auto; rewrite !app_length; lia|constructor 2; auto].
Qed.
Lemma lex_under : forall a l m, lex l m -> lex (a ++ l) (a ++ m).
Proof. induction a; cbn; auto. intros l m H. constructor 2. auto. Qed.
Lemma lexeq_app : forall a b l m, lexeq a b -> length l = length m -> lexeq l m -> lexeq (a ++ l) (b ++ m).
Proof. intros a b l m [->|H] E [->|K]; try (now left); right; auto using lex_app, lex_under. Qed.
Lemma lex_app_r : forall a b l m, lexeq a b -> lex l m -> lex (a ++ l) (b ++ m).
Proof. intros a b l m [->|H] K; [now apply lex_under|]. apply lex_app; auto. now apply lex_length. Qed.
Lemma lex_snoc : forall a b l m, lexeq a b -> length l = length m -> (lex a b \/ lex l m) -> lex (a ++ l) (b ++ m).
Proof. intros a b l m H E [K|K]; [now apply lex_app|now apply lex_app_r]. Qed.
Lemma lex_le : forall a b l m, a <= b -> lexeq l m -> lexeq (a :: l) (b :: m).
Proof.
  intros a b l m L H. destruct (Nat.eq_dec a b) as [->|N].
  - destruct H as [->|H]; [now left|]. right. now constructor 2.
  - right. constructor; [lia|now apply lexeq_length].
Qed.
Lemma lex_lt : forall a b l m, a <= b -> lex l m -> lex (a :: l) (b :: m).
Proof.
  intros a b l m L H. destruct (Nat.eq_dec a b) as [->|N]; [now constructor 2|]. constructor; [lia|now apply lex_length].
Qed.

Lemma lex_acc : forall n l, length l = n -> Acc lex l.
Proof.
  induction n as [|n IH]; intros l E.
  - destruct l; [|discriminate]. constructor. intros y H. inversion H.
  - destruct l as [|a l]; [discriminate|]. injection E as E. revert l E. induction a as [a IHa] using (well_founded_induction lt_wf).
    intros l E. pose proof (IH l E) as AC. induction AC as [l AC IHl]. constructor. intros y H. inversion H; subst.
    + apply IHa; [auto|congruence].
    + apply IHl; [auto|]. erewrite lex_length by eauto. auto.
Qed.
