(** The intrinsics of the examples only pass on the arguments they are given. *)
From Coq Require Import String List ZArith NArith Bool Arith.
From Verif Require Import Model.Base Model.Value Model.Ast Model.Registry Model.AstGraph Model.TyBuild Model.Compile Model.ArgApi Spec.TyBuildSpec Spec.CompileSpec Spec.ArgSpec Spec.ParamSpec
  Proofs.RegistrySamples Proofs.ArgSamples.
From Verif Require Model.TyGraph Model.Locals.
Import ListNotations.

Section F.
Variable g : graph.
Notation fair := (fair (P := code) g).
Lemma rep_key : forall t, key_of (rep t) = t.
Proof. intros []; reflexivity. Qed.
Lemma ok_fair : forall X (k : X -> prog) r, (forall x, r = inl x -> fair (k x)) -> fair (ok k r).
Proof. intros X k [x|e] H; [now apply H|constructor]. Qed.
Lemma next_fair : forall k, (forall b, written g (b_node b) -> fair (k b)) -> fair (PNext (ok k)).
Proof. intros k H. constructor. intros r W. apply ok_fair. intros b ->. now apply H, W. Qed.
Lemma supplied_fair : forall b t k, written g (b_node b) -> (forall b, written g (b_node b) -> fair (k b)) -> fair (PSupplied b t (ok k)).
Proof. intros b t k Wb H. constructor; [auto|]. intros r W. apply ok_fair. intros b' ->. now apply H, W. Qed.
Lemma returns_fair : forall b t k, written g (b_node b) -> (forall b, written g (b_node b) -> fair (k b)) -> fair (PReturns b t (ok k)).
Proof. intros b t k Wb H. constructor; [auto|]. intros r W. apply ok_fair. intros b' ->. now apply H, W. Qed.
Lemma concrete_fair : forall b k, written g (b_node b) -> (forall a, fair (k a)) -> fair (PConcrete b (ok k)).
Proof. intros b k Wb H. constructor; [auto|]. intros r. apply ok_fair. auto. Qed.
Lemma create_fair : forall a t k, written g a -> (forall v, fair (k v)) -> fair (PCreate a t (ok k)).
Proof. intros a t k W H. constructor; [auto|]. intros r. apply ok_fair. auto. Qed.
Lemma inject_fair : forall a x t k, written g a -> (forall v, fair (k v)) -> fair (PInject a x t (ok k)).
Proof. intros a x t k W H. constructor; [auto|]. intros r. apply ok_fair. auto. Qed.
Ltac go := repeat first
  [ assumption | apply next_fair; intros | apply supplied_fair; [assumption|intros] | apply returns_fair; [assumption|intros] | apply concrete_fair; [assumption|intros]
  | apply create_fair; [assumption|intros] | apply inject_fair; [assumption|intros] | constructor; intros ].
Lemma take_fair : forall n ty acc k, (forall l, fair (k l)) -> fair (take_args n ty acc k).
Proof. induction n as [|n IH]; intros ty acc k H; cbn [take_args]; [apply H|]. apply next_fair. intros b W. apply supplied_fair; [auto|]. intros b1 W1. apply returns_fair; [auto|]. intros b2 W2. apply concrete_fair; [auto|]. intros a. now apply IH. Qed.
Lemma let_fair : forall n acc k, (forall l, fair (k l)) -> fair (let_args n acc k).
Proof.
  induction n as [|n IH]; intros acc k H; cbn [let_args]; [apply H|]. apply next_fair. intros b W. apply supplied_fair; [auto|]. intros b1 W1. apply concrete_fair; [auto|]. intros a.
  apply next_fair. intros b2 W2. apply create_fair; [auto|]. intros v. now apply IH.
Qed.
Lemma samples_fair : forall c cmd t, fair (program g c cmd t).
Proof.
  intros c cmd t. unfold program. destruct (node g cmd) as [[| ? f| | | | | | |]|]; try constructor. destruct f as [[|[|[|[|[|[|[|x]]]]]]]|? ?]; try (constructor; fail).
  - destruct (tkey_eqb t KNum); [|constructor]. constructor. destruct (_ =? 0); [constructor|]. constructor. apply take_fair. constructor.
  - go.
  - constructor. constructor. constructor. apply let_fair. intros l. destruct (Nat.even _); go.
  - go.
  - destruct (tkey_eqb t KTabRow); [|constructor]. apply next_fair. intros b W. apply supplied_fair; [auto|]. intros b1 W1. apply returns_fair; [auto|]. intros b2 W2. apply concrete_fair; [auto|]. intros a.
    constructor. intros [f|]; [constructor|]. constructor. intros [u|]; constructor.
  - go.
  - constructor. destruct (tkey_eqb t KTab); [|constructor]. apply next_fair. intros b W. constructor; [auto|]. apply supplied_fair; [auto|]. intros b1 W1. apply concrete_fair; [auto|]. intros a.
    constructor. constructor. intros [n|] m H; [|constructor]. apply inject_fair; [apply H; auto|]. intros v. constructor. go.
Qed.
End F.
