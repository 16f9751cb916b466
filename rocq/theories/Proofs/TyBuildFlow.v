(** Where anything may come in, and what the edges from everywhere else carry. *)
From Coq Require Import List Bool Arith Lia.
From Verif Require Import Model.Base Model.TyGraph Spec.TyGraphSpec Proofs.TyGraphProofs Proofs.ResolveProofs.
Import ListNotations.

Section proofs.
Variables (T : Type) (eqb : T -> T -> bool).
Hypothesis eqb_eq : forall a b, eqb a b = true <-> a = b.
Variable A : nat -> Prop.
Implicit Types (g : tgraph T) (k : kn T).
Let keeps := keeps T.

Definition any_in g : Prop := forall p, kn_at g p = Some Any -> A (fst p).
Definition closed g : Prop := forall e, In e (edges g) -> e_flow e = II -> A (e_from e) -> A (e_to e).
Definition ok_from g e : Prop := agrees g e \/ A (e_from e).
Definition done_from (s : state T) : Prop := forall i, In i (snd s) -> exists e, nth_error (edges (fst s)) i = Some e /\ ok_from (fst s) e.

Lemma from_keeps : forall g g' done, keeps g g' -> done_from (g, done) -> done_from (g', done).
Proof.
  intros g g' done K D i I. destruct (D i I) as (e & N & O). exists e. cbn in *. split.
  - destruct K as (_ & _ & l & ->). rewrite nth_error_app1; auto. apply nth_error_Some. congruence.
  - destruct O as [O|O]; [left; eapply agrees_keeps; eauto|right; exact O].
Qed.
Lemma put_any_in : forall g p k, any_in g -> (k = Any -> A (fst p)) -> any_in (put g p k).
Proof. intros g p k N H q E. apply kn_at_put in E. destruct E as [(-> & Q & _)|E]; [symmetry in Q; auto|now apply N]. Qed.

Lemma flow_from : forall es s c, no_single T (fst s) -> any_in (fst s) -> closed (fst s) -> done_from s ->
  let s' := fst (flow_loop eqb es s c) in any_in (fst s') /\ edges (fst s') = edges (fst s) /\ done_from s'.
Proof.
  induction es as [|i rest IH]; intros [g done] c NS NA CL D; cbn [flow_loop fst snd] in *; auto.
  destruct (nth_error (edges g) i) as [e|] eqn:Ee; auto.
  destruct (kn_at g (src_slot e)) as [from|] eqn:E1; auto.
  destruct (kn_at g (dst_slot e)) as [to|] eqn:E2; auto.
  assert (Ie : In e (edges g)) by (eapply nth_error_In; eauto).
  destruct (edge_effect eqb (e_flow e) from to) eqn:F; auto.
  - apply (IH (g, done) c); auto.
  - apply effect_forward in F. destruct F as [CF W].
    assert (K: keeps g (put g (dst_slot e) from)) by (eapply put_keeps; eauto; eapply can_flow_det; eauto).
    apply (IH (put g (dst_slot e) from, i :: done) true); cbn [fst snd].
    + eapply put_no_single; eauto.
    + apply put_any_in; [auto|]. intros ->. destruct W as [W|(_ & EF & _)]; [discriminate|]. cbn [dst_slot fst]. apply CL; auto. exact (NA _ E1).
    + exact CL.
    + assert (D' := from_keeps _ _ _ K D). intros j [<-|I]; [|exact (D' j I)]. exists e. split; auto.
      destruct (put_both T g (src_slot e) (dst_slot e) from) as [Q1 Q2]; [exact E1|congruence|].
      destruct W as [W|(-> & EF & _)]; [|right; exact (NA _ E1)].
      left. destruct from as [|x|x|xs]; try discriminate; [eapply both_agree; eauto; reflexivity|eapply both_agree; eauto; reflexivity|].
      exfalso. cbn in W. unfold is_single in W. destruct xs as [|x [|y r]]; try discriminate. eapply NS; eauto.
  - apply effect_back in F. destruct F as [CF ((t & DT) & EF & _)].
    assert (K: keeps g (put g (src_slot e) to)) by (eapply put_keeps; eauto; eapply can_flow_det; eauto).
    apply (IH (put g (src_slot e) to, i :: done) true); cbn [fst snd].
    + eapply put_no_single; eauto.
    + apply put_any_in; [auto|]. intros ->. discriminate.
    + exact CL.
    + assert (D' := from_keeps _ _ _ K D). intros j [<-|I]; [|exact (D' j I)]. exists e. split; auto.
      destruct (put_both T g (dst_slot e) (src_slot e) to) as [Q1 Q2]; [exact E2|congruence|]. left. eapply both_agree; eauto.
Qed.

Lemma intersect_any_in : forall es g c, any_in g -> any_in (fst (intersect_loop eqb es g c)).
Proof.
  induction es as [|i rest IH]; intros g c N; cbn [intersect_loop]; auto.
  destruct (nth_error (edges g) i); auto. destruct (kn_at g (src_slot e)); auto. destruct (kn_at g (dst_slot e)); auto.
  destruct (int eqb k k0); auto. apply IH. apply put_any_in; [apply put_any_in|]; auto; discriminate.
Qed.
Lemma map_any_in : forall g f es a, (forall k, f k = Any -> k = Any) -> any_in g -> any_in {| nodes := nodes (map_kn f g); edges := es; anon_tys := a |}.
Proof.
  intros g f es a H N p E. assert (E' : kn_at (map_kn f g) p = Some Any) by exact E. rewrite kn_at_map in E'. destruct (kn_at g p) as [k|] eqn:Q; [|discriminate].
  cbn in E'. injection E' as E'. apply H in E'. subst. now apply N.
Qed.

Lemma resolve_from : forall fuel s s' r, any_in (fst s) -> closed (fst s) -> done_from s -> resolve_tg eqb fuel s = Some (s', r) ->
  any_in (fst s') /\ edges (fst s') = edges (fst s) /\ done_from s'.
Proof.
  induction fuel as [|n IH]; intros s s' r NA CL D H; cbn [resolve_tg] in H; [discriminate|].
  pose proof (intersect_sets_keeps T eqb s) as K1.
  pose proof (intersect_any_in (pending s) (fst s) false NA) as N1.
  destruct (intersect_inferred_sets eqb s) as [s1 r1] eqn:E1. destruct (intersect_state _ _ _ _ _ E1) as (Ed1 & SD & P). cbn [fst] in K1.
  assert (F1: fst s1 = fst (intersect_loop eqb (pending s) (fst s) false)).
  { unfold intersect_inferred_sets in E1. destruct (intersect_loop eqb (pending s) (fst s) false). inversion E1. reflexivity. }
  assert (D1: done_from s1). { destruct s1 as [g1 d1], s as [g d]. cbn in *. subst d1. apply (from_keeps g); auto. }
  assert (A1: any_in (fst s1)) by (rewrite F1; auto).
  assert (D2: done_from (upgrade s1)) by (destruct s1; apply (from_keeps t); auto; apply upgrade_keeps).
  assert (A2: any_in (fst (upgrade s1))).
  { apply (map_any_in (fst s1) (@upgrade_kn T)); [|exact A1]. intros [|x|x|[|x [|y q]]]; cbn; congruence. }
  assert (Ed2 : edges (fst (upgrade s1)) = edges (fst s)) by exact Ed1.
  destruct r1; try (inversion H; subst; auto; fail).
  destruct (flow_from (pending (upgrade s1)) (upgrade s1) false) as (NA3 & Ed3 & D3); auto.
  { apply upgrade_no_single. } { unfold closed. rewrite Ed2. exact CL. }
  unfold flow_types in H. destruct (flow_loop eqb (pending (upgrade s1)) (upgrade s1) false) as [s2 r2]. cbn [fst] in *.
  destruct r2 as [[|]| |]; try (inversion H; subst; repeat split; auto; congruence).
  destruct (IH s2 s' r) as (B1 & B2 & B3); auto; [unfold closed; rewrite Ed3, Ed2; exact CL|]. repeat split; auto. congruence.
Qed.

Definition chg_from (c : chg T) : Prop := match c with AnyInput n => A n | AddEdge _ d II => A d | _ => True end.
Definition step_from (x : cstep T) : Prop := match x with CChanges cs => Forall chg_from cs | CLink _ o _ => ~ A o | CResolve _ => True end.

Lemma at_slot_any_in : forall g p f, (forall k c k', f k = Ok (c, k') -> k' = Any -> k = Any \/ A (fst p)) -> any_in g -> any_in (fst (at_slot g p f)).
Proof.
  intros g p f H N. unfold at_slot. destruct (kn_at g p) as [k|] eqn:E; auto. destruct (f k) as [[c k']| |] eqn:F; auto.
  apply put_any_in; auto. intros Q. destruct (H _ _ _ F Q) as [->|Q']; [exact (N _ E)|exact Q'].
Qed.
Lemma at_slot_edges : forall g p f, edges (fst (at_slot g p f)) = edges g.
Proof. intros g p f. unfold at_slot. destruct (kn_at g p); auto. destruct (f k) as [[c k']| |]; auto. Qed.
Lemma set_kn_any : forall exp k c k', set_kn eqb k exp = Ok (c, k') -> k' = Any -> k = Any \/ exp = Any.
Proof.
  intros exp k c k' H E. unfold set_kn in H. destruct (kn_eqb eqb k exp); [inversion H; subst; auto|].
  destruct (can_flow eqb exp k); cbn in H; inversion H; subst; auto.
Qed.
Lemma apply_from : forall g c, chg_from c -> any_in g -> closed g -> let g' := fst (apply_chg eqb g c) in any_in g' /\ closed g'.
Proof.
  intros g c NC N CL. destruct c as [n t|n t|n t|n|n t|n t|n t|a b f|t]; cbn [apply_chg chg_from] in *.
  1, 2, 5, 6: split; [apply at_slot_any_in; auto; intros k c k' E Q; destruct (set_kn_any _ _ _ _ E Q); [auto|discriminate]|unfold closed; rewrite at_slot_edges; exact CL].
  1, 3: split; [apply at_slot_any_in; auto; intros k c k' E Q; subst; destruct k; cbn in E; inversion E; auto|unfold closed; rewrite at_slot_edges; exact CL].
  - destruct (kn_at g (n, In_)) as [k|]; [|auto]. destruct (kn_ty k); [auto|]. split; [apply at_slot_any_in; auto|unfold closed; rewrite at_slot_edges; exact CL].
  - destruct (has_edge g a b f); [auto|]. destruct (_ && _); [|auto]. split; [exact N|]. intros e I EF AF. cbn [fst edges add_edge] in I. apply in_app_or in I.
    destruct I as [I|[<-|[]]]; [now apply CL|]. cbn [e_flow e_to e_from] in *. subst f. exact NC.
  - split; [|exact CL]. apply map_any_in; [|exact N]. intros [|x|x|xs] E; cbn in E; try discriminate; auto. destruct (ts_insert eqb t xs); discriminate.
Qed.
Lemma applys_from : forall cs g a, Forall chg_from cs -> any_in g -> closed g -> let g' := fst (apply_chgs eqb g cs a) in any_in g' /\ closed g'.
Proof.
  induction cs as [|c cs IH]; intros g a F N CL; cbn [apply_chgs]; auto. inversion F; subst.
  destruct (apply_from g c H1 N CL) as (K1 & K2). destruct (apply_chg eqb g c) as [g' [b|e|]]; auto.
Qed.
Lemma link_from : forall args g op c, ~ A op -> any_in g -> closed g -> let g' := fst (link_args g op args c) in any_in g' /\ closed g'.
Proof.
  induction args as [|a args IH]; intros g op c NO N CL; cbn [link_args]; auto. destruct (joined g op a); auto. apply IH; auto.
  intros e I EF AF. cbn [edges add_edge] in I. apply in_app_or in I. destruct I as [I|[<-|[]]]; [now apply CL|]. contradiction.
Qed.

Lemma exec_from : forall s x, step_from x -> any_in (fst s) -> closed (fst s) -> done_from s ->
  let s' := fst (exec_c eqb s x) in any_in (fst s') /\ closed (fst s') /\ done_from s'.
Proof.
  intros s x SX N CL D. pose proof (exec_c_keeps T eqb eqb_eq s x) as K. destruct x as [cs|o args|]; cbn [exec_c step_from] in *.
  - pose proof (applys_from cs (fst s) false SX N CL) as (B1 & B2). destruct (apply_chgs eqb (fst s) cs false) as [g' q]. cbn [fst] in *.
    split; [auto|]. split; [auto|]. destruct s. apply (from_keeps t); auto.
  - pose proof (link_from args (fst s) o false SX N CL) as (B1 & B2). destruct (link_args (fst s) o args false) as [g' q]. cbn [fst] in *.
    split; [auto|]. split; [auto|]. destruct s. apply (from_keeps t); auto.
  - destruct (resolve_tg eqb (S (length (edges (fst s)))) s) as [[s' r]|] eqn:E; cbn [fst] in *; auto.
    destruct (resolve_from _ _ _ _ N CL D E) as (B1 & B2 & B3). split; [auto|]. split; [|auto]. unfold closed. rewrite B2. exact CL.
Qed.
Lemma history_from : forall xs s, Forall step_from xs -> any_in (fst s) -> closed (fst s) -> done_from s ->
  done_from (fst (compile_history eqb s xs)).
Proof.
  induction xs as [|x xs IH]; intros s F N CL D; cbn [compile_history]; [exact D|]. inversion F; subst.
  destruct (exec_from s x H1 N CL D) as (B1 & B2 & B3). destruct (exec_c eqb s x) as [s' [u|e|]]; auto.
Qed.

(** After a compilation whose last step is a resolution. *)
Theorem carried : forall xs g s, any_in g -> closed g -> Forall step_from xs -> compile_history eqb (g, []) (xs ++ [CResolve T]) = (s, Ok tt) ->
  forall e, In e (edges g) -> ~ A (e_from e) -> forall t,
  (settled (fst s) (fst (feeds e)) t -> settled (fst s) (snd (feeds e)) t) /\
  (e_flow e = II -> settled (fst s) (snd (feeds e)) t -> settled (fst s) (fst (feeds e)) t).
Proof.
  intros xs g s N CL F H e I NA t.
  assert (D: done_from s).
  { pose proof (history_from (xs ++ [CResolve T]) (g, [])) as Q. rewrite H in Q. apply Q; auto; [|intros i []]. apply Forall_app. split; auto. repeat constructor. }
  assert (R: at_rest s).
  { rewrite compile_app in H. destruct (compile_history eqb (g, []) xs) as [s1 [v|x|]]; try discriminate.
    cbn [compile_history exec_c] in H. destruct (resolve_tg eqb (S (length (edges (fst s1)))) s1) as [[s2 [w|x|]]|] eqn:E; try discriminate.
    inversion H; subst. destruct w. eapply resolve_rest; eauto. }
  assert (Ie : In e (edges (fst s))).
  { pose proof (compile_keeps T eqb eqb_eq (xs ++ [CResolve T]) (g, [])) as (_ & _ & l & E). rewrite H in E. cbn [fst] in E. rewrite E. apply in_or_app. auto. }
  apply In_nth_error in Ie. destruct Ie as (i & Ne).
  destruct (in_dec Nat.eq_dec i (snd s)) as [J|J].
  - destruct (D i J) as (e' & N' & [(w & W1 & W2)|Q]); assert (e' = e) by congruence; subst e'; [|contradiction].
    split; [intros B|intros _ B]; (assert (t = w) as ->; [|assumption]); apply settled_det in B, W1, W2;
      destruct B as (? & B & ?), W1 as (? & W1 & ?), W2 as (? & W2 & ?); congruence.
  - destruct R as [_ R]. destruct (R i e Ne J) as (from & to & _ & _ & K & K2). split.
    + intros B. exfalso. eapply K; eauto.
    + intros EF B. exfalso. destruct (K2 EF) as (_ & K3). eapply K3; eauto.
Qed.
End proofs.
