(** Blocks compile when their variables are in scope. *)
From Coq Require Import String List ZArith NArith Bool Lia Arith.
From Verif Require Import Model.Base Model.Value Model.Exec Model.Link Spec.ExecSpec Spec.NamedSpec
  Proofs.RegistryProofs Proofs.LinkProofs.
Import ListNotations.
Set Implicit Arguments.

Section Scoped.
Variable W : Type.

Definition some {A} (o : option A) : bool := match o with Some _ => true | None => false end.
Definition covers (N : str -> bool) (g : cscope W) : Prop := forall x, N x = some (g x).
Definition good {A} (r : res A) : bool := match r with Ok _ => true | _ => false end.

Lemma covers_see p vars : forall N g, covers N g -> covers (adds p vars N) (see p vars g).
Proof.
  induction vars as [|v vars IH]; intros N g C; [exact C|].
  set (g1 := if p (bv_scope v) then match bv_slot v with Some s => upd (bv_name v) (HVar s) g | None => g end else g).
  change (see p (v :: vars) g) with (see p vars g1).
  assert (C1 : covers (fun x => (p (bv_scope v) && some (bv_slot v) && str_eqb (bv_name v) x) || N x) g1).
  { intros y. unfold g1. destruct (p (bv_scope v)); cbn; [|apply C]. destruct (bv_slot v); cbn; [|apply C].
    unfold upd. destruct (str_eqb _ _); cbn; auto. }
  intro x. rewrite <- (IH _ _ C1 x). unfold adds. cbn [existsb]. rewrite orb_assoc. f_equal. apply orb_comm.
Qed.

Definition scoped_args (N : nat -> str -> bool) : nat -> list (arg W) -> bool :=
  fix go (i : nat) (args : list (arg W)) : bool :=
  match args with
  | [] => true
  | a :: args => scoped_arg (N i) a && go (S i) args
  end.
Lemma scoped_op N vars (args : list (arg W)) f :
  scoped_blk N (BOp vars args f) = scoped_args (fun i => adds (for_arg i) vars N) 0 args.
Proof. reflexivity. Qed.
Lemma scoped_call N ps (args : list (arg W)) body :
  scoped_blk N (BCall ps args body) =
  forallb (scoped_arg N) args && Nat.eqb (length ps) (length args) &&
  scoped (fun x => existsb (fun p => str_eqb (fst p) x) ps) body.
Proof. reflexivity. Qed.
Lemma scoped_expr N (e : list (blk W)) : scoped_arg N (AExpr e) = scoped N e.
Proof. reflexivity. Qed.

Definition blk_sc (b : blk W) : Prop := forall N g, covers N g ->
  scoped_blk N b = good (link_blk g b) /\
  forall s g', link_blk g b = Ok (s, g') -> covers (after b N) g'.
Definition arg_sc (a : arg W) : Prop := forall N g, covers N g -> scoped_arg N a = good (link_arg g a).

Lemma code_sc bs : Forall blk_sc bs -> forall N g, covers N g -> scoped N bs = good (link g bs).
Proof.
  induction 1 as [|b bs Hb _ IH]; intros N g C; cbn [scoped link]; auto.
  destruct (Hb N g C) as [E1 E2]. rewrite E1. destruct (link_blk g b) as [[s g']| |]; cbn; auto.
  rewrite (IH (after b N) g'); eauto. destruct (link g' bs); auto.
Qed.

Lemma args_sc args : Forall arg_sc args -> forall N g i, (forall i, covers (N i) (g i)) ->
  scoped_args N i args = good (link_args g i args).
Proof.
  induction 1 as [|a args Ha _ IH]; intros N g i C; [reflexivity|].
  rewrite link_args_cons. change (scoped_args N i (a :: args)) with (scoped_arg (N i) a && scoped_args N (S i) args).
  rewrite (Ha (N i) (g i) (C i)). destruct (link_arg (g i) a); cbn; auto. rewrite (IH N g (S i) C).
  destruct (link_args g (S i) args); auto.
Qed.

Lemma enter_good ps : forall (hs : list (hold W)) g, good (enter ps hs g) = Nat.eqb (length ps) (length hs) .
Proof.
  induction ps as [|[x [s|]] ps IH]; intros [|h hs] g; cbn [enter length]; auto.
  - cbn [Nat.eqb]. rewrite <- (IH hs (upd x (HVar s) g)). destruct (enter ps hs (upd x (HVar s) g)); auto.
  - cbn [Nat.eqb]. apply IH.
Qed.
Lemma enter_covers ps : forall (hs : list (hold W)) g N params g', enter ps hs g = Ok (params, g') -> covers N g ->
  covers (fun x => existsb (fun p => str_eqb (fst p) x) ps || N x) g'.
Proof.
  induction ps as [|[x k] ps IH]; intros [|h hs] g N params g' E C; cbn [enter] in E; try discriminate.
  - injection E as <- <-. exact C.
  - destruct k; discriminate.
  - assert (U : forall h', covers (fun y => str_eqb x y || N y) (upd x h' g)).
    { intros h' y. unfold upd. destruct (str_eqb x y); cbn; auto. }
    destruct k as [s|].
    + destruct (enter ps hs (upd x (HVar s) g)) as [[p2 g2]| |] eqn:E2; try discriminate E. injection E as <- <-.
      intros y. rewrite <- (IH _ _ _ _ _ E2 (U _) y). cbn. rewrite orb_assoc. f_equal. apply orb_comm.
    + intros y. rewrite <- (IH _ _ _ _ _ E (U _) y). cbn. rewrite orb_assoc. f_equal. apply orb_comm.
Qed.

Lemma all_sc : (forall b, blk_sc b) /\ (forall a, arg_sc a).
Proof.
  assert (O : forall vars args f, Forall arg_sc args -> blk_sc (BOp vars args f)).
  { intros vars args f Ha N g C. rewrite scoped_op, link_op.
    rewrite (args_sc Ha (fun i => adds (for_arg i) vars N) (fun i => see (is_in i) vars g)) by (intro; apply covers_see; auto).
    destruct (link_args _ 0 args); cbn; split; auto; try discriminate.
    intros s g' E. injection E as <- <-. apply covers_see. auto. }
  assert (K : forall ps args body, Forall arg_sc args -> Forall blk_sc body -> blk_sc (BCall ps args body)).
  { intros ps args body Ha Hb N g C. rewrite scoped_call, link_call.
    assert (Ea : forallb (scoped_arg N) args = good (link_args (fun _ => g) 0 args)).
    { rewrite <- (args_sc Ha (fun _ => N) (fun _ => g)) by auto.
      clear. generalize 0. induction args as [|a args IH]; intros i; [reflexivity|].
      cbn [forallb]. rewrite (IH (S i)). reflexivity. }
    rewrite Ea. destruct (link_args (fun _ => g) 0 args) as [hs| |] eqn:Eh; cbn; try (split; [auto|discriminate]).
    rewrite <- (proj1 (args_nth _ _ _ Eh)), <- (enter_good ps hs (@empty W)).
    destruct (enter ps hs (@empty W)) as [[params gb]| |] eqn:Ee; cbn; try (split; [auto|discriminate]).
    rewrite (code_sc Hb (g := gb)).
    - destruct (link gb body); cbn; split; auto; try discriminate. intros s g' E. injection E as <- <-. exact C.
    - intros x. assert (Y := @enter_covers ps hs (@empty W) (fun _ => false) params gb Ee (fun x => eq_refl) x). cbn in Y.
      rewrite orb_false_r in Y. exact Y. }
  assert (X : forall e, Forall blk_sc e -> arg_sc (AExpr e)).
  { intros e H N g C. rewrite scoped_expr, link_expr, (code_sc H C). destruct (link g e); auto. }
  assert (L : forall v, arg_sc (ALit v)) by (intros v N g C; reflexivity).
  assert (V : forall x, arg_sc (AVar x)).
  { intros x N g C. cbn. rewrite (C x). destruct (g x); auto. }
  split; [apply (@blk_ind2 W blk_sc arg_sc)|apply (@arg_ind2 W blk_sc arg_sc)]; auto.
Qed.

Lemma scoped_links bs : scoped (fun _ => false) bs = true <-> exists c, link (@empty W) bs = Ok c.
Proof.
  assert (F : Forall blk_sc bs) by (apply Forall_forall; intros b _; apply all_sc).
  rewrite (@code_sc bs F (fun _ => false) (@empty W) (fun x => eq_refl)).
  destruct (link (@empty W) bs); cbn; split; intros H; try discriminate; eauto; destruct H; discriminate.
Qed.

(** ** The compiled program *)
Lemma program_runs bs code n v w : link (@empty W) bs = Ok code -> NoDup (slots bs) -> (forall s, In s (slots bs) -> s < n) ->
  sims (fun x q => fst q = x) (means bs (@nothing W) v w) (eval code v (env_new n) w).
Proof.
  intros L N B. eapply sims_eq; [|eapply (@all_code W bs (fun _ => False)); eauto].
  - intros a b [H _]. exact H.
  - apply valid_empty.
  - split; auto. intros i Hi. split; auto. unfold env_new. rewrite nth_error_repeat; auto.
Qed.

End Scoped.
