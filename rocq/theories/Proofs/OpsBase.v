(** What it takes for the calls of an intrinsic on its block to come to an answer. *)
From Coq Require Import String List NArith Bool Arith Lia Permutation.
From Verif Require Import Model.Base Model.Value Model.Ast Model.Registry Model.AstGraph Model.TyBuild Model.Compile Model.ArgApi Model.Ops Spec.AstGraphSpec Spec.TyBuildSpec Spec.LocalsSpec Spec.CompileSpec Spec.ArgSpec Spec.OpSpec
  Proofs.TyBuildBase Proofs.TyBuildNodes Proofs.CompileProofs Proofs.CompileInv Proofs.ArgProofs Proofs.CallProofs.
From Verif Require Model.TyGraph Model.Locals Proofs.LocalsGraphProofs.
Import ListNotations.

(** ** What does not matter for the answer *)
Section Exec.
Variables (P : Type) (g : graph).
Notation comp := (comp P ArgApi.binding cparam).
Implicit Types c : comp.
Definition alike (b b' : ablock) : Prop := k_op b = k_op b' /\ k_in b = k_in b' /\ k_flags b = k_flags b' /\ k_args b = k_args b'.
Lemma exec_alike : forall c (p : ArgApi.prog P) b b' r, alike b b' -> exec g c b p = Good r -> exists r', exec g c b' p = Good r' /\ r_res r' = r_res r.
Proof.
  intros c p. induction p as [t x|e|x k IH|k IH|t k IH|t k IH|rt k IH|k IH|a t k IH|a x t k IH|t k IH|k IH|k IH|b0 t k IH|b0 t k IH|b0 k IH|b0 k IH];
    intros b b' r (A1 & A2 & A3 & A4) H; cbn [exec] in *.
  - injection H as <-. rewrite A3, A4. eexists. split; reflexivity.
  - injection H as <-. eexists. split; reflexivity.
  - rewrite A3 in H. destruct (take_flag x (k_flags b')) as [[f l]|]; (eapply IH; [|exact H]); repeat split; auto.
  - rewrite A4 in H. eapply IH; [|exact H]. repeat split; auto.
  - eapply IH; [|exact H]. repeat split; auto.
  - eapply IH; [|exact H]. repeat split; auto.
  - destruct rt; (eapply IH; [|exact H]); repeat split; auto.
  - eapply IH; [|exact H]. repeat split; auto.
  - destruct (create_var g c a t); cbn [obind] in *; try discriminate. eapply IH; [|exact H]. repeat split; auto.
  - destruct (inject_var c a x t); cbn [obind] in *; try discriminate. eapply IH; [|exact H]. repeat split; auto.
  - eapply IH; [|exact H]. repeat split; auto.
  - rewrite A1 in H. destruct (output_ty g c (k_op b')) as [[u|]| | |]; cbn [obind] in *; try discriminate; (eapply IH; [|exact H]); repeat split; auto.
  - rewrite A4, A2 in H. destruct (k_args b') as [|n ns] eqn:E; [eapply IH; [|exact H]; repeat split; auto; congruence|].
    destruct (new_arg g c n (Some (k_in b'))); cbn [obind] in *; try discriminate. eapply IH; [|exact H]. repeat split; auto.
  - eapply IH; [|exact H]. repeat split; auto.
  - destruct (returns b0 t); cbn [obind] in *; try discriminate. eapply IH; [|exact H]. repeat split; auto.
  - destruct (decouple g b0); cbn [obind] in *; try discriminate. eapply IH; [|exact H]. repeat split; auto.
  - destruct (concrete g c b0); cbn [obind] in *; try discriminate. eapply IH; [|exact H]. repeat split; auto.
Qed.
End Exec.

Section Y.
Variables (P : Type) (g : graph).
Notation comp := (comp P ArgApi.binding cparam).
Variables (c : comp) (k : nat) (t : tkey).
(** The program answers with [y], given these flags and arguments. *)
Definition Y (p : ArgApi.prog P) (fl : list tag) (ns : list nat) (y : tkey * P) : Prop :=
  exists r, exec g c (ABlock k t fl ns [] false false) p = Good r /\ r_res r = inl y.
Lemma Y_in : forall p b y, k_op b = k -> k_in b = t -> (exists r, exec g c b p = Good r /\ r_res r = inl y) <-> Y p (k_flags b) (k_args b) y.
Proof.
  intros p b y E1 E2. unfold Y. split; intros (r & H & R); (eapply exec_alike in H; [|shelve]; destruct H as (r' & H & R'); exists r'; split; [exact H|congruence]).
  Unshelve. all: repeat split; auto.
Qed.
Ltac via := unfold Y at 1; cbn [exec k_op k_in k_flags k_args]; match goal with |- (exists r, exec _ _ ?b ?p = Good r /\ r_res r = inl ?y) <-> _ => exact (Y_in p b y eq_refl eq_refl) end.
Lemma Y_eval : forall u x fl ns y, Y (PEval u x) fl ns y <-> fl = [] /\ ns = [] /\ y = (u, x).
Proof.
  intros u x fl ns y. unfold Y. cbn. split.
  - intros (r & H & R). injection H as <-. cbn in R. destruct fl; [|discriminate]. destruct ns; [|discriminate]. injection R as <-. auto.
  - intros (-> & -> & ->). eexists. split; reflexivity.
Qed.
Lemma Y_fail : forall e fl ns y, Y (PFail P e) fl ns y <-> False.
Proof. intros. split; [|tauto]. intros (r & H & R). cbn in H. injection H as <-. discriminate. Qed.
Lemma Y_flag : forall x p fl ns y, Y (PFlag x p) fl ns y <-> match take_flag x fl with Some (f, l) => Y (p (Some f)) l ns y | None => Y (p None) fl ns y end.
Proof. intros. unfold Y at 1. cbn [exec k_flags k_op k_in k_args k_asks k_infer k_adds]. destruct (take_flag x fl) as [[f l]|]; reflexivity. Qed.
Lemma Y_peek : forall p fl ns y, Y (PPeek p) fl ns y <-> Y (p (head_of ns) (last_of ns)) fl ns y.
Proof. intros. via. Qed.
Lemma Y_says : forall u p fl ns y, Y (PSays u p) fl ns y <-> Y p fl ns y.
Proof. intros. via. Qed.
Lemma Y_anon : forall u p fl ns y, Y (PAnon u p) fl ns y <-> Y p fl ns y.
Proof. intros. via. Qed.
Lemma Y_adds : forall b p fl ns y, Y (PAddsVars b p) fl ns y <-> Y p fl ns y.
Proof. intros. destruct b; via. Qed.
Lemma Y_added : forall p fl ns y, Y (PVarsAdded p) fl ns y <-> Y p fl ns y.
Proof. intros. via. Qed.
Lemma Y_oblige : forall u p fl ns y, Y (POblige u p) fl ns y <-> Y p fl ns y.
Proof. intros. via. Qed.
Lemma Y_create : forall a u p fl ns y, Y (PCreate a u p) fl ns y <-> exists r, create_var g c a u = Good r /\ Y (p (fst r)) fl ns y.
Proof.
  intros. unfold Y at 1. cbn [exec]. destruct (create_var g c a u) as [r| | |]; cbn [obind]; try (split; [intros (? & ? & ?); discriminate|intros (? & ? & ?); discriminate]).
  split; [intros H; exists r; split; [reflexivity|]|intros (r' & E & H); injection E as <-]; [now apply Y_in in H|now apply Y_in].
Qed.
Lemma Y_inject : forall a x u p fl ns y, Y (PInject a x u p) fl ns y <-> exists r, inject_var c a x u = Good r /\ Y (p (fst r)) fl ns y.
Proof.
  intros. unfold Y at 1. cbn [exec]. destruct (inject_var c a x u) as [r| | |]; cbn [obind]; try (split; [intros (? & ? & ?); discriminate|intros (? & ? & ?); discriminate]).
  split; [intros H; exists r; split; [reflexivity|]|intros (r' & E & H); injection E as <-]; [now apply Y_in in H|now apply Y_in].
Qed.
Lemma Y_output : forall p fl ns y, Y (POutput p) fl ns y <-> exists w, output_ty g c k = Good w /\ Y (p w) fl ns y.
Proof.
  intros. unfold Y at 1. cbn [exec k_op k_in k_flags k_args]. destruct (output_ty g c k) as [r| | |]; cbn [obind]; try (split; [intros (? & ? & ?); discriminate|intros (? & ? & ?); discriminate]).
  assert (Z : k_op (match r with Some _ => ABlock k t fl ns [] false false | None => ABlock k t fl ns [] true false end) = k /\
    k_in (match r with Some _ => ABlock k t fl ns [] false false | None => ABlock k t fl ns [] true false end) = t /\
    k_flags (match r with Some _ => ABlock k t fl ns [] false false | None => ABlock k t fl ns [] true false end) = fl /\
    k_args (match r with Some _ => ABlock k t fl ns [] false false | None => ABlock k t fl ns [] true false end) = ns) by (destruct r; auto).
  destruct Z as (Z1 & Z2 & Z3 & Z4). cbn [k_asks k_adds].
  split; [intros H; exists r; split; [reflexivity|]|intros (r' & E & H); injection E as <-].
  - apply (Y_in _ _ y Z1 Z2) in H. now rewrite Z3, Z4 in H.
  - apply (Y_in _ _ y Z1 Z2). now rewrite Z3, Z4.
Qed.
Lemma Y_next : forall p fl ns y, Y (PNext p) fl ns y <-> match ns with [] => Y (p (inr err_few_args)) fl ns y | n :: ns => exists b, new_arg g c n (Some t) = Good b /\ Y (p (inl b)) fl ns y end.
Proof.
  intros p fl [|n ns] y; [via|]. unfold Y at 1. cbn [exec k_op k_in k_flags k_args]. destruct (new_arg g c n (Some t)) as [r| | |]; cbn [obind]; try (split; [intros (? & ? & ?); discriminate|intros (? & ? & ?); discriminate]).
  split; [intros H; exists r; split; [reflexivity|]|intros (r' & E & H); injection E as <-]; [now apply Y_in in H|now apply Y_in].
Qed.
Lemma Y_supplied : forall b u p fl ns y, Y (PSupplied b u p) fl ns y <-> Y (p (fst (ArgApi.supplied b u))) fl ns y.
Proof. intros. via. Qed.
Lemma Y_returns : forall b u p fl ns y, Y (PReturns b u p) fl ns y <-> exists r, returns b u = Good r /\ Y (p (fst r)) fl ns y.
Proof.
  intros. unfold Y at 1. cbn [exec]. destruct (returns b u) as [r| | |]; cbn [obind]; try (split; [intros (? & ? & ?); discriminate|intros (? & ? & ?); discriminate]).
  split; [intros H; exists r; split; [reflexivity|]|intros (r' & E & H); injection E as <-]; [now apply Y_in in H|now apply Y_in].
Qed.
Lemma Y_decouple : forall b p fl ns y, Y (PDecouple b p) fl ns y <-> (exists r, decouple g b = Good r) /\ Y p fl ns y.
Proof.
  intros. unfold Y at 1. cbn [exec]. destruct (decouple g b) as [r| | |]; cbn [obind]; try (split; [intros (? & ? & ?); discriminate|intros ((? & ?) & ?); discriminate]).
  split; [intros H; split; [eauto|]|intros (_ & H)]; [now apply Y_in in H|now apply Y_in].
Qed.
Lemma Y_concrete : forall b p fl ns y, Y (PConcrete b p) fl ns y <-> exists r, concrete g c b = Good r /\ Y (p r) fl ns y.
Proof.
  intros. unfold Y at 1. cbn [exec]. destruct (concrete g c b) as [r| | |]; cbn [obind]; try (split; [intros (? & ? & ?); discriminate|intros (? & ? & ?); discriminate]).
  split; [intros H; exists r; split; [reflexivity|exact H]|intros (r' & E & H); injection E as <-; exact H].
Qed.
End Y.
