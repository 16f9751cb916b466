(** Compiled code computes the meaning of the blocks. *)
From Coq Require Import String List ZArith NArith Bool Lia Arith.
From Verif Require Import Model.Base Model.Value Model.Exec Model.Link Spec.NamedSpec Proofs.RegistryProofs.
Import ListNotations.
Set Implicit Arguments.

Section Link.
Variable W : Type.

(** ** Induction *)
Section Ind.
  Variables (P : blk W -> Prop) (Q : arg W -> Prop).
  Hypothesis Hop : forall vars args f, Forall Q args -> P (BOp vars args f).
  Hypothesis Hcall : forall ps args body, Forall Q args -> Forall P body -> P (BCall ps args body).
  Hypothesis Hlit : forall v, Q (ALit v).
  Hypothesis Hvar : forall x, Q (AVar x).
  Hypothesis Hexpr : forall e, Forall P e -> Q (AExpr e).
  Fixpoint blk_ind2 (b : blk W) : P b :=
    match b with
    | BOp vars args f =>
        Hop vars f ((fix go (l : list (arg W)) : Forall Q l :=
                       match l with [] => Forall_nil _ | a :: l => Forall_cons _ (arg_ind2 a) (go l) end) args)
    | BCall ps args body =>
        Hcall ps ((fix go (l : list (arg W)) : Forall Q l :=
                     match l with [] => Forall_nil _ | a :: l => Forall_cons _ (arg_ind2 a) (go l) end) args)
              ((fix go (l : list (blk W)) : Forall P l :=
                  match l with [] => Forall_nil _ | a :: l => Forall_cons _ (blk_ind2 a) (go l) end) body)
    end
  with arg_ind2 (a : arg W) : Q a :=
    match a with
    | ALit v => Hlit v
    | AVar x => Hvar x
    | AExpr e => Hexpr ((fix go (l : list (blk W)) : Forall P l :=
                  match l with [] => Forall_nil _ | a :: l => Forall_cons _ (blk_ind2 a) (go l) end) e)
    end.
End Ind.

(** ** Unfolding *)
Lemma invoke_op (hs : list (hold W)) xs f v e : invoke (Op hs xs f) v e = run_act (map (@resolve W) hs) xs (f v) e.
Proof. reflexivity. Qed.
Lemma invoke_def ps (body : list (step W)) v e :
  invoke (Def ps body) v e =
  bind (bind_params (fun e => e) (map (fun p => (fst p, resolve (snd p))) ps) v e) (fun e => eval body v e).
Proof. reflexivity. Qed.
Lemma invoke_inject args local (body : list (step W)) v e :
  invoke (Inject args local body) v e =
  bind (bind_params (fun _ => e)
          (map (fun p => let '(h, x, fixed) := p in
             (x, fun i e => resolve h (match fixed with Some v => v | None => i end) e)) args) v local)
    (fun local => bind (eval body v local) (fun p => ret (fst p, e))).
Proof. reflexivity. Qed.
Lemma resolve_expr (c : list (step W)) v e : resolve (HExpr c) v e = bind (eval c v e) (fun p => ret (fst p)).
Proof. reflexivity. Qed.

Definition link_args (g : nat -> cscope W) : nat -> list (arg W) -> res (list (hold W)) :=
  fix go (i : nat) (args : list (arg W)) : res (list (hold W)) :=
  match args with
  | [] => Ok []
  | a :: args => let? h := link_arg (g i) a in let? hs := go (S i) args in Ok (h :: hs)
  end.
Lemma link_op g vars (args : list (arg W)) f :
  link_blk g (BOp vars args f) =
  (let? hs := link_args (fun i => see (is_in i) vars g) 0 args in Ok (Op hs (map bv_slot vars) f, see is_next vars g)).
Proof. reflexivity. Qed.
Definition link_args0 (g : cscope W) : list (arg W) -> res (list (hold W)) :=
  fix go (args : list (arg W)) : res (list (hold W)) :=
  match args with
  | [] => Ok []
  | a :: args => let? h := link_arg g a in let? hs := go args in Ok (h :: hs)
  end.
Lemma link_args_cons g i a args :
  link_args g i (a :: args) = (let? h := link_arg (g i) a in let? hs := link_args g (S i) args in Ok (h :: hs)).
Proof. reflexivity. Qed.
Lemma link_args0_cons g a args :
  link_args0 g (a :: args) = (let? h := link_arg g a in let? hs := link_args0 g args in Ok (h :: hs)).
Proof. reflexivity. Qed.
Lemma link_args0_eq g args : forall i, link_args (fun _ => g) i args = link_args0 g args.
Proof. induction args as [|a args IH]; intros i; [reflexivity|].
  rewrite link_args_cons, link_args0_cons, IH. auto. Qed.
Lemma link_call g ps (args : list (arg W)) body :
  link_blk g (BCall ps args body) =
  (let? hs := link_args (fun _ => g) 0 args in
   let? r := enter ps hs (@empty W) in
   let? code := link (snd r) body in Ok (Def (fst r) code, g)).
Proof. rewrite link_args0_eq. reflexivity. Qed.
Lemma link_expr g (e : list (blk W)) : link_arg g (AExpr e) = (let? c := link g e in Ok (HExpr c)).
Proof. reflexivity. Qed.

Definition args_means (sc : nat -> list value -> nscope W) : nat -> list (arg W) -> list (list value -> meaning W) :=
  fix go (i : nat) (args : list (arg W)) : list (list value -> meaning W) :=
  match args with
  | [] => []
  | a :: args => (fun vals => arg_means a (sc i vals)) :: go (S i) args
  end.
Lemma means_op vars (args : list (arg W)) f r v :
  blk_means (BOp vars args f) r v =
  bind (act_means (args_means (fun i vals => seen (for_arg i) vars vals r) 0 args) (f v) (map (fun _ => VNil) vars))
    (fun p => ret (fst p, seen for_next vars (snd p) r)).
Proof. reflexivity. Qed.
Lemma means_call ps (args : list (arg W)) body r v :
  blk_means (BCall ps args body) r v =
  bind (params_mean ps (map (fun a => arg_means a r) args) v (@nothing W)) (fun r' =>
  bind (means body r' v) (fun x => ret (x, r))).
Proof. reflexivity. Qed.
Lemma slots_op vars (args : list (arg W)) f :
  slots_blk (BOp vars args f) = var_slots vars ++ flat_map (@slots_arg W) args.
Proof. reflexivity. Qed.
Lemma slots_call ps (args : list (arg W)) body :
  slots_blk (BCall ps args body) = param_slots ps ++ flat_map (@slots_arg W) args ++ slots body.
Proof. reflexivity. Qed.
Lemma means_expr (e : list (blk W)) r v : arg_means (AExpr e) r v = means e r v.
Proof. reflexivity. Qed.

(** ** Environments *)
Definition agree (S : nat -> Prop) (e e' : env) : Prop :=
  length e = length e' /\ forall i, S i -> nth_error e i = nth_error e' i.
Definition same_off (l : list nat) (e e' : env) : Prop :=
  length e = length e' /\ forall i, ~ In i l -> nth_error e' i = nth_error e i.

Lemma put_spec i v e : i < length e -> exists e', put i v e = Some e' /\ length e' = length e /\
  nth_error e' i = Some v /\ forall j, j <> i -> nth_error e' j = nth_error e j.
Proof.
  revert i. induction e as [|x e IH]; intros i H; cbn in H; [lia|].
  destruct i as [|i]; cbn.
  - eexists. split; [reflexivity|]. cbn. repeat split. intros [|j]; [congruence|reflexivity].
  - destruct (IH i) as (e' & E & L & N & O); [lia|]. rewrite E. eexists. split; [reflexivity|]. cbn. repeat split; auto.
    intros [|j] Hj; cbn; auto.
Qed.

Definition valid (S : nat -> Prop) (g : cscope W) (r : nscope W) (e : env) : Prop :=
  forall x, match g x, r x with
            | Some h, Some d => forall e' v w, agree S e e' -> resolve h v e' w = d v w
            | None, None => True
            | _, _ => False
            end.

Lemma agree_refl S e : agree S e e.
Proof. split; auto. Qed.
Lemma agree_trans S a b c : agree S a b -> agree S b c -> agree S a c.
Proof. intros [L1 H1] [L2 H2]. split; [congruence|]. intros i Hi. rewrite H1, H2; auto. Qed.
Lemma agree_sub (S S' : nat -> Prop) a b : (forall i, S i -> S' i) -> agree S' a b -> agree S a b.
Proof. intros I [L H]. split; auto. Qed.
Lemma agree_off (S : nat -> Prop) l a b : (forall i, S i -> ~ In i l) -> same_off l a b -> agree S a b.
Proof. intros D [L H]. split; auto. intros i Hi. symmetry. auto. Qed.
Lemma off_trans l a b c : same_off l a b -> same_off l b c -> same_off l a c.
Proof. intros [L1 H1] [L2 H2]. split; [congruence|]. intros i Hi. rewrite H2, H1; auto. Qed.
Lemma off_incl l l' a b : incl l l' -> same_off l a b -> same_off l' a b.
Proof. intros I [L H]. split; auto. Qed.

Lemma valid_mono (S S' : nat -> Prop) g r e e' :
  (forall i, S i -> S' i) -> agree S e e' -> valid S g r e -> valid S' g r e'.
Proof.
  intros I A V x. specialize (V x). destruct (g x), (r x); auto.
  intros e2 v w A2. apply V. eapply agree_trans; [exact A|]. eapply agree_sub; eauto.
Qed.
Lemma valid_bind S g r e x s v :
  valid S g r e -> S s -> nth_error e s = Some v -> valid S (upd x (HVar s) g) (bound x (@constant W v) r) e.
Proof.
  intros V Hs Hv y. unfold upd, bound. destruct (str_eqb x y); [|apply V].
  intros e' i w A. cbn. unfold fetch, lift, constant, ret. rewrite <- (proj2 A _ Hs), Hv. reflexivity.
Qed.
Lemma valid_bind_hold S g r e x h (d : meaning W) :
  valid S g r e -> (forall e' v w, agree S e e' -> resolve h v e' w = d v w) -> valid S (upd x h g) (bound x d r) e.
Proof. intros V H y. unfold upd, bound. destruct (str_eqb x y); [auto|apply V]. Qed.
Lemma valid_empty S e : valid S (@empty W) (@nothing W) e.
Proof. intro x. exact Logic.I. Qed.

(** the variables of a block hold these values *)
Definition holds_vals (vars : list bvar) (vals : list value) (e : env) : Prop :=
  length vals = length vars /\
  forall j b s v, nth_error vars j = Some b -> bv_slot b = Some s -> nth_error vals j = Some v -> nth_error e s = Some v.

Lemma holds_tail b vars v vals e : holds_vals (b :: vars) (v :: vals) e -> holds_vals vars vals e.
Proof. intros [L H]. split; [cbn in L; lia|]. intros j. apply (H (1 + j)). Qed.

Lemma var_slots_in vars j b s : nth_error vars j = Some b -> bv_slot b = Some s -> In s (var_slots vars).
Proof.
  intros H E. apply in_flat_map. exists b. split; [eapply nth_error_In; eauto|]. rewrite E. left; auto.
Qed.

Lemma valid_see p S vars vals g r e :
  valid S g r e -> (forall s, In s (var_slots vars) -> S s) -> holds_vals vars vals e ->
  valid S (see p vars g) (seen p vars vals r) e.
Proof.
  revert vals g r. induction vars as [|b vars IH]; intros vals g r V I H; [destruct vals; exact V|].
  destruct vals as [|v vals]; [destruct H as [L _]; cbn in L; lia|].
  unfold see. cbn [fold_left seen]. apply IH.
  - destruct (p (bv_scope b)); auto. destruct (bv_slot b) as [s|] eqn:E; auto.
    apply valid_bind; auto.
    + apply I. cbn. rewrite E. left; auto.
    + apply (proj2 H 0 b s v); auto.
  - intros s Hs. apply I. cbn. apply in_or_app. right; auto.
  - eapply holds_tail; eauto.
Qed.

Lemma nth_replace_eq i v l : i < length l -> nth_error (replace i v l) i = Some v.
Proof. revert i. induction l as [|x l IH]; intros [|i] H; cbn in *; try lia; auto. apply IH. lia. Qed.
Lemma nth_replace_neq i j v l : i <> j -> nth_error (replace i v l) j = nth_error l j.
Proof. revert i j. induction l as [|x l IH]; intros [|i] [|j] H; cbn; auto; try congruence. Qed.
Lemma replace_length i v l : length (replace i v l) = length l.
Proof. revert i. induction l as [|x l IH]; intros [|i]; cbn; auto. Qed.

Lemma slots_inj vars i j b b' s :
  NoDup (var_slots vars) -> nth_error vars i = Some b -> nth_error vars j = Some b' ->
  bv_slot b = Some s -> bv_slot b' = Some s -> i = j.
Proof.
  revert i j. induction vars as [|x vars IH]; intros i j N Hi Hj E E'; [destruct i; discriminate|].
  unfold var_slots in N. cbn in N. fold (var_slots vars) in N.
  destruct i as [|i], j as [|j]; cbn in Hi, Hj; auto.
  - injection Hi as ->. rewrite E in N. cbn in N. inversion N as [|? ? H1 H2]; subst.
    elim H1. eapply var_slots_in; eauto.
  - injection Hj as ->. rewrite E' in N. cbn in N. inversion N as [|? ? H1 H2]; subst.
    elim H1. eapply var_slots_in; eauto.
  - f_equal. eapply IH; eauto. destruct (bv_slot x); cbn in N; [inversion N|]; auto.
Qed.

(** ** An op *)
(** [o] computes what [m] says, with an environment related to the rest of what [m] gives. *)
Definition sims {A B} (R : A -> B -> Prop) (m : W * res A) (o : W * res B) : Prop :=
  match m with
  | (w, Ok a) => exists b, o = (w, Ok b) /\ R a b
  | (w, Err n) => o = (w, Err n)
  | (w, Panic) => o = (w, Panic)
  end.
Lemma sims_bind {A B A' B'} (R : A -> B -> Prop) (R' : A' -> B' -> Prop) (m : M W A) (o : M W B) k k' w :
  sims R (m w) (o w) -> (forall a b w, R a b -> sims R' (k a w) (k' b w)) ->
  sims R' (bind m k w) (bind o k' w).
Proof.
  intros H K. unfold bind. unfold sims in H at 1. destruct (m w) as [w' [a|n|]].
  - destruct H as (b & -> & H). apply K; auto.
  - rewrite H. reflexivity.
  - rewrite H. reflexivity.
Qed.
Lemma sims_eq {A B} (R R' : A -> B -> Prop) m o : (forall a b, R a b -> R' a b) -> sims R m o -> sims R' m o.
Proof. intros I. destruct m as [w [a|n|]]; cbn; auto. intros (b & E & H). eauto. Qed.

Section Op.
  Variables (vars : list bvar) (e : env).
  Hypothesis Nd : NoDup (var_slots vars).
  Hypothesis Inb : forall s, In s (var_slots vars) -> s < length e.
  Definition inv (vals : list value) (ecur : env) : Prop := holds_vals vars vals ecur /\ same_off (var_slots vars) e ecur.

  Variables (rs : list (value -> env -> M W value)) (ds : list (list value -> meaning W)).
  Hypothesis Hargs : forall i, match nth_error rs i, nth_error ds i with
    | Some f, Some d => forall vals ecur v w, inv vals ecur -> f v ecur w = d vals v w
    | None, None => True
    | _, _ => False
    end.

  Lemma act_sim a : forall vals ecur w, inv vals ecur ->
    sims (fun p q => fst q = fst p /\ inv (snd p) (snd q)) (act_means ds a vals w) (run_act rs (map bv_slot vars) a ecur w).
  Proof.
    induction a as [v|n| |i input k IH|i v k IH|f k IH]; intros vals ecur w Iv; cbn [act_means run_act].
    - eexists. split; [reflexivity|]. auto.
    - reflexivity.
    - reflexivity.
    - specialize (Hargs i). destruct (nth_error rs i) as [f|], (nth_error ds i) as [d|]; try easy.
      apply sims_bind with (R := fun a b => a = b).
      + rewrite (Hargs _ _ input w Iv). destruct (d vals input w) as [w' [x|n|]]; cbn; eauto.
      + intros x y w' ->. apply IH; auto.
    - destruct Iv as [Hv Ho]. rewrite nth_error_map.
      destruct (Nat.ltb_spec i (length vals)) as [L|L].
      + destruct (nth_error vars i) as [b|] eqn:E.
        2:{ apply nth_error_None in E. destruct Hv as [Lv _]. lia. }
        cbn [option_map].
        assert (Keep : forall e', (forall j b' s v', nth_error vars j = Some b' -> bv_slot b' = Some s ->
                       nth_error (replace i v vals) j = Some v' -> nth_error e' s = Some v') ->
                       holds_vals vars (replace i v vals) e').
        { intros e' H. split; [rewrite replace_length; apply Hv|auto]. }
        destruct (bv_slot b) as [s|] eqn:Es; cbn [set_data].
        * destruct (@put_spec s v ecur) as (e' & Ep & Le & Hs & Hn).
          { rewrite <- (proj1 Ho). apply Inb. eapply var_slots_in; eauto. }
          unfold bind, lift. rewrite Ep. apply IH. split.
          -- apply Keep. intros j b' s' v' Hj Eb Hr.
             destruct (Nat.eq_dec i j) as [->|Nij].
             ++ rewrite nth_replace_eq in Hr by lia. congruence.
             ++ rewrite nth_replace_neq in Hr by lia.
                rewrite Hn; [eapply (proj2 Hv); eauto|]. intros ->. apply Nij. eapply slots_inj; eauto.
          -- apply off_trans with ecur; auto. split; [auto|]. intros j Hj. apply Hn. intros ->. apply Hj.
             eapply var_slots_in; eauto.
        * unfold bind, lift. apply IH. split; auto. apply Keep. intros j b' s' v' Hj Eb Hr.
          destruct (Nat.eq_dec i j) as [->|Nij]; [congruence|].
          rewrite nth_replace_neq in Hr by lia. eapply (proj2 Hv); eauto.
      + assert (nth_error vars i = None) as E by (apply nth_error_None; destruct Hv as [Lv _]; lia).
        rewrite E. reflexivity.
    - destruct (f w) as [w' v]. apply IH; auto.
  Qed.
End Op.

(** ** Everything *)
Definition blank (l : list nat) (S : nat -> Prop) (e : env) : Prop :=
  NoDup l /\ forall i, In i l -> ~ S i /\ nth_error e i = Some VNil.

Definition blk_ok (b : blk W) : Prop :=
  forall S g r e s g', link_blk g b = Ok (s, g') -> valid S g r e -> blank (slots_blk b) S e ->
  forall v w, sims (fun p q => fst q = fst p /\ same_off (slots_blk b) e (snd q) /\
                               valid (fun i => S i \/ In i (slots_blk b)) g' (snd p) (snd q))
                (blk_means b r v w) (invoke s v e w).
Definition arg_ok (a : arg W) : Prop :=
  forall S g r e h, link_arg g a = Ok h -> valid S g r e -> blank (slots_arg a) S e ->
  forall v w, resolve h v e w = arg_means a r v w.
Definition code_ok (bs : list (blk W)) : Prop :=
  forall S g r e c, link g bs = Ok c -> valid S g r e -> blank (slots bs) S e ->
  forall v w, sims (fun x q => fst q = x /\ same_off (slots bs) e (snd q)) (means bs r v w) (eval c v e w).

Lemma nodup_l {A} (l l' : list A) : NoDup (l ++ l') -> NoDup l.
Proof.
  induction l as [|x l IH]; cbn; [constructor|]. intros N. inversion N; subst. constructor; auto.
  intro. apply H1. apply in_or_app; auto.
Qed.
Lemma nodup_r {A} (l l' : list A) : NoDup (l ++ l') -> NoDup l'.
Proof. induction l as [|x l IH]; cbn; auto. intros N. inversion N; auto. Qed.
Lemma blank_app l l' S e : blank (l ++ l') S e -> blank l S e /\ blank l' S e.
Proof.
  intros [N H]. split; split.
  - eapply nodup_l; eauto.
  - intros i Hi. apply H, in_or_app. auto.
  - eapply nodup_r; eauto.
  - intros i Hi. apply H, in_or_app. auto.
Qed.
Lemma nodup_apart {A} (l l' : list A) x : NoDup (l ++ l') -> In x l -> ~ In x l'.
Proof.
  induction l as [|y l IH]; cbn; [easy|]. intros N [->|H] H'.
  - inversion N; subst. apply H1. apply in_or_app; auto.
  - inversion N; subst. eapply IH; eauto.
Qed.
(** after a part that only writes its own slots, the other slots are still blank *)
Lemma blank_after l l' (S : nat -> Prop) e e' :
  blank (l ++ l') S e -> same_off l e e' -> blank l' (fun i => S i \/ In i l) e'.
Proof.
  intros [N H] [L O]. split; [eapply nodup_r; eauto|].
  intros i Hi. destruct (H i) as [NS B]; [apply in_or_app; auto|].
  assert (~ In i l) by (intro Hl; eapply nodup_apart; eauto).
  split; [tauto|]. rewrite O; auto.
Qed.

Lemma code_of_blks bs : Forall blk_ok bs -> code_ok bs.
Proof.
  induction 1 as [|b bs Hb _ IH]; intros S g r e c L V B v w; cbn [link] in L.
  - injection L as <-. cbn. eexists. split; [reflexivity|]. cbn. split; auto. split; auto.
  - destruct (link_blk g b) as [[s g']| |] eqn:Eb; try discriminate L. cbn [rbind fst snd] in L.
    destruct (link g' bs) as [c'| |] eqn:Ec; try discriminate L. injection L as <-.
    cbn [means eval]. unfold slots in B. cbn [flat_map] in B. fold (slots bs) in B.
    eapply sims_bind.
    + eapply Hb; eauto. eapply (proj1 (blank_app _ _ B)).
    + intros [x r'] [y e'] w' (Hxy & Off & V'). cbn [fst snd] in *. subst y.
      eapply sims_eq.
      2:{ eapply IH; eauto. eapply blank_after; eauto. }
      intros a q [H1 H2]. split; auto. unfold slots. cbn [flat_map]. fold (slots bs).
      apply off_trans with e'; [eapply off_incl; [|exact Off]|eapply off_incl; [|exact H2]].
      * apply incl_appl, incl_refl.
      * apply incl_appr, incl_refl.
Qed.

Lemma arg_agree a (S : nat -> Prop) g r e h : arg_ok a -> link_arg g a = Ok h -> valid S g r e ->
  blank (slots_arg a) S e ->
  forall e' v w, agree (fun i => S i \/ In i (slots_arg a)) e e' -> resolve h v e' w = arg_means a r v w.
Proof.
  intros H L V [N B] e' v w A. eapply (H S); eauto.
  - apply valid_mono with (S := S) (e := e); [auto| |exact V]. eapply agree_sub; [|exact A]. intros i Hi; left; exact Hi.
  - split; auto. intros i Hi. destruct (B i Hi) as [NS Hn]. split; auto.
    rewrite <- (proj2 A); auto.
Qed.

Lemma args_nth (sc : nat -> cscope W) args : forall i0 hs, link_args sc i0 args = Ok hs ->
  length hs = length args /\
  forall i a, nth_error args i = Some a -> exists h, nth_error hs i = Some h /\ link_arg (sc (i0 + i)) a = Ok h.
Proof.
  induction args as [|a args IH]; intros i0 hs H; [cbn in H|rewrite link_args_cons in H].
  - injection H as <-. split; auto. intros [|i] b Hb; discriminate.
  - destruct (link_arg (sc i0) a) as [h| |] eqn:Eh; try discriminate H. cbn [rbind] in H.
    destruct (link_args sc (S i0) args) as [hs'| |] eqn:Er; try discriminate H. injection H as <-.
    destruct (IH _ _ Er) as [L H]. split; [cbn; lia|].
    intros [|i] b Hb; cbn in Hb.
    + injection Hb as <-. exists h. rewrite Nat.add_0_r. auto.
    + destruct (H _ _ Hb) as (h' & E1 & E2). exists h'. cbn. rewrite <- plus_n_Sm. auto.
Qed.
Lemma means_nth sc (args : list (arg W)) : forall i0 i,
  nth_error (args_means sc i0 args) i = option_map (fun a vals => arg_means a (sc (i0 + i) vals)) (nth_error args i).
Proof.
  induction args as [|a args IH]; intros i0 [|i]; cbn; auto.
  - rewrite Nat.add_0_r. auto.
  - rewrite IH, <- plus_n_Sm. reflexivity.
Qed.

Lemma args_blank args S e i (a : arg W) : blank (flat_map (@slots_arg W) args) S e -> nth_error args i = Some a ->
  blank (slots_arg a) S e.
Proof.
  revert i. induction args as [|b args IH]; intros [|i] B H; cbn in *; try discriminate.
  - injection H as <-. apply (blank_app _ _ B).
  - eapply IH; eauto. apply (blank_app _ _ B).
Qed.

Lemma op_ok vars args f : Forall arg_ok args -> blk_ok (BOp vars args f).
Proof.
  intros Ha S g r e s g' L V B v w. rewrite link_op in L.
  destruct (link_args (fun i => see (is_in i) vars g) 0 args) as [hs| |] eqn:Eh; try discriminate L.
  cbn [rbind] in L. injection L as <- <-.
  rewrite means_op, invoke_op. rewrite slots_op in *.
  assert (Bv := proj1 (blank_app _ _ B)).
  assert (Bnd : forall i, In i (var_slots vars) -> i < length e).
  { intros i Hi. apply nth_error_Some. rewrite (proj2 (proj2 Bv _ Hi)). discriminate. }
  destruct (args_nth _ _ _ Eh) as [Lh Hh].
  assert (SIM := @act_sim vars e (proj1 Bv) Bnd (map (@resolve W) hs)
    (args_means (fun i vals => seen (for_arg i) vars vals r) 0 args)).
  match type of SIM with ?P -> _ => assert (HP : P) end.
  { intros i. rewrite nth_error_map, means_nth.
    destruct (nth_error args i) as [a|] eqn:Ea.
    - destruct (Hh _ _ Ea) as (h & E1 & E2). rewrite E1. cbn.
      intros vals ecur v' w' [Hv Ho].
      assert (In a args) by (eapply nth_error_In; eauto).
      rewrite Forall_forall in Ha.
      assert (Bc : blank (flat_map (@slots_arg W) args) (fun i => S i \/ In i (var_slots vars)) ecur)
        by (eapply blank_after; eauto).
      refine (Ha a H (fun i => S i \/ In i (var_slots vars)) _ _ _ _ E2 _ _ v' w').
      + apply valid_see; [|intros s' Hs'; right; exact Hs'|exact Hv]. eapply valid_mono; [| |exact V]; [intros i0 Hi0; left; exact Hi0|].
        eapply agree_off; eauto. intros j Hj Hin. exact (proj1 (proj2 Bv _ Hin) Hj).
      + eapply args_blank; eauto.
    - apply nth_error_None in Ea. rewrite (proj2 (nth_error_None hs i)) by lia. exact Logic.I. }
  assert (Eb : run_act (map (@resolve W) hs) (map bv_slot vars) (f v) e w
             = bind (run_act (map (@resolve W) hs) (map bv_slot vars) (f v) e) (fun p => ret p) w).
  { unfold bind. destruct (run_act _ _ _ _ _) as [w' [x|n|]]; reflexivity. }
  rewrite Eb. eapply sims_bind.
  - apply (SIM HP (f v)). split; [|split; auto]. split; [apply map_length|].
    intros j b s v' Hj Hs Hn. rewrite nth_error_map in Hn. rewrite Hj in Hn. injection Hn as <-.
    apply (proj2 Bv). eapply var_slots_in; eauto.
  - intros [x vals] [y e'] w' [Hxy [Hv Ho]]. cbn [fst snd] in *. subst y.
    eexists. split; [reflexivity|]. cbn [fst snd]. split; auto. split.
    + eapply off_incl; [|exact Ho]. apply incl_appl, incl_refl.
    + apply valid_see; [| |exact Hv].
      * eapply valid_mono; [| |exact V]; [intros i0 Hi0; left; exact Hi0|]. eapply agree_off; eauto.
        intros j Hj Hin. exact (proj1 (proj2 Bv _ Hin) Hj).
      * intros s Hs. right. apply in_or_app. auto.
Qed.

(** the parameters of a call *)
Lemma enter_sim ps : forall hs (ds : list (meaning W)) g0 params g' (S : nat -> Prop) e0 e r0 v w (Sb : nat -> Prop),
  enter ps hs g0 = Ok (params, g') ->
  Forall2 (fun h d => forall e' v w, agree S e0 e' -> resolve h v e' w = d v w) hs ds ->
  agree S e0 e -> (forall i, S i -> Sb i) -> NoDup (param_slots ps) ->
  (forall i, In i (param_slots ps) -> ~ Sb i /\ i < length e) ->
  valid Sb g0 r0 e ->
  sims (fun r' e' => same_off (param_slots ps) e e' /\ valid (fun i => Sb i \/ In i (param_slots ps)) g' r' e')
    (params_mean ps ds v r0 w) (bind_params (fun e => e) (map (fun p => (fst p, resolve (snd p))) params) v e w).
Proof.
  induction ps as [|[x k] ps IH]; intros hs ds g0 params g' S e0 e r0 v w Sb En F A I Nd Dj V; cbn [enter] in En.
  - destruct hs; [|discriminate]. injection En as <- <-. inversion F; subst. cbn.
    eexists. split; [reflexivity|]. split; [split; auto|]. eapply valid_mono; [| |exact V]; [intros i0 Hi0; left; exact Hi0|apply agree_refl].
  - destruct hs as [|h hs]; [destruct k; discriminate|]. inversion F as [|? d ? ds' Hd F' E1 E2]; subst.
    destruct k as [s|].
    + destruct (enter ps hs (upd x (HVar s) g0)) as [[p2 g2]| |] eqn:E; try discriminate En. injection En as <- <-.
      cbn [map params_mean bind_params fst snd].
      unfold param_slots in Nd, Dj |- *. cbn [flat_map snd app] in Nd, Dj |- *. fold (param_slots ps) in *.
      eapply sims_bind with (R := fun a b => a = b).
      { rewrite (Hd e v w A). destruct (d v w) as [w' [y|n|]]; cbn; eauto. }
      intros y ? w' <-. destruct (Dj s) as [Ns Ls]; [left; auto|].
      destruct (@put_spec s y e Ls) as (e1 & Ep & Le & Hs & Hn).
      unfold bind, lift, set_data. rewrite Ep.
      inversion Nd as [|? ? Nin Nd']; subst.
      assert (A1 : agree S e0 e1).
      { eapply agree_trans; [exact A|]. split; [lia|]. intros i Hi. symmetry. apply Hn. intros ->. auto. }
      eapply sims_eq.
      2:{ eapply (IH hs ds' (upd x (HVar s) g0) p2 g2 S e0 e1 (bound x (@constant W y) r0) v w'
                    (fun i => Sb i \/ i = s)); eauto.
          - intros i Hi. destruct (Dj i) as [Ni Li]; [right; auto|]. split; [|lia].
            intros [H| ->]; auto.
          - apply valid_bind; [|right; auto|auto]. eapply valid_mono; [| |exact V]; [intros i0 Hi0; left; exact Hi0|].
            split; [lia|]. intros i Hi. symmetry. apply Hn. intros ->. auto. }
      intros r' e' [[L1 O1] V1]. split.
      * split; [lia|]. intros i Hi. rewrite O1 by (intro; apply Hi; right; auto).
        apply Hn. intros ->. apply Hi. left; auto.
      * eapply valid_mono; [| |exact V1]; [|apply agree_refl]. cbn. intros i [[H|H]|H]; auto.
    + cbn [params_mean]. cbn [param_slots flat_map snd app] in *.
      eapply IH; eauto. apply valid_bind_hold; auto.
      intros e' v' w' A'. apply Hd. eapply agree_trans; [exact A|]. eapply agree_sub; eauto.
Qed.

Lemma call_ok ps args body : Forall arg_ok args -> Forall blk_ok body -> blk_ok (BCall ps args body).
Proof.
  intros Ha Hb S g r e s g' L V B v w. rewrite link_call in L.
  destruct (link_args (fun _ => g) 0 args) as [hs| |] eqn:Eh; try discriminate L. cbn [rbind] in L.
  destruct (enter ps hs (@empty W)) as [[params gb]| |] eqn:Ee; try discriminate L. cbn [rbind fst snd] in L.
  destruct (link gb body) as [code| |] eqn:Ec; try discriminate L. injection L as <- <-.
  rewrite means_call, invoke_def. rewrite slots_call in *.
  set (P := param_slots ps) in *. set (A := flat_map (@slots_arg W) args) in *.
  assert (Bp := proj1 (blank_app _ _ B)). assert (Bab := proj2 (blank_app _ _ B)).
  assert (Ba := proj1 (blank_app _ _ Bab)).
  set (SA := fun i => S i \/ In i A).
  assert (F : Forall2 (fun h d => forall e' v w, agree SA e e' -> resolve h v e' w = d v w) hs
                (map (fun a => arg_means a r) args)).
  { destruct (args_nth _ _ _ Eh) as [Lh Hh].
    assert (G : forall l hs', length hs' = length l -> (forall i a, nth_error l i = Some a ->
              exists h, nth_error hs' i = Some h /\ link_arg g a = Ok h) -> Forall arg_ok l ->
              (forall a, In a l -> blank (slots_arg a) S e /\ incl (slots_arg a) A) ->
              Forall2 (fun h d => forall e' v w, agree SA e e' -> resolve h v e' w = d v w) hs' (map (fun a => arg_means a r) l)).
    { induction l as [|a l IH]; intros [|h hs'] Ll Hl Hok HA; cbn in Ll; try lia; cbn [map]; constructor.
      - destruct (Hl 0 a eq_refl) as (h' & E1 & E2). cbn in E1. injection E1 as <-.
        intros e' v' w' Ag. inversion Hok; subst. destruct (HA a) as [Bl In1]; [left; auto|].
        eapply (@arg_agree a S); eauto. eapply agree_sub; [|exact Ag]. intros i [H|H]; [left|right]; auto.
      - inversion Hok; subst. apply IH; auto; [|intros; apply HA; right; auto].
        intros i a' Hi. exact (Hl (1 + i) a' Hi). }
    apply G; auto.
    intros a Hin. destruct (In_nth_error _ _ Hin) as [i Hi]. split.
    - eapply args_blank; eauto.
    - intros j Hj. apply in_flat_map. eauto. }
  eapply sims_bind.
  - eapply (@enter_sim ps hs _ (@empty W) params gb SA e e (@nothing W) v w SA); eauto.
    + apply agree_refl.
    + apply Bp.
    + intros i Hi. destruct (proj2 Bp i Hi) as [Ni Hn]. split.
      * intros [H|H]; auto. eapply (nodup_apart P (A ++ slots body)); [apply B|exact Hi|]. apply in_or_app; auto.
      * apply nth_error_Some. fold P in Hi. rewrite Hn. discriminate.
    + apply valid_empty.
  - intros r' e1 w' [Off V1]. fold P in Off, V1.
    assert (Bb : blank (slots body) (fun i => SA i \/ In i P) e1).
    { assert (B1 : blank (A ++ slots body) (fun i => S i \/ In i P) e1) by (eapply blank_after; eauto).
      assert (B2 : blank (slots body) (fun i => (S i \/ In i P) \/ In i A) e1)
        by (eapply blank_after; [exact B1|split; auto]).
      destruct B2 as [N2 H2]. split; auto. intros i Hi. destruct (H2 i Hi) as [Q1 Q2]. split; auto. unfold SA. tauto. }
    assert (Ebind : forall p : value * env, p = (fst p, snd p)) by (intros []; auto).
    assert (Eb : eval code v e1 w' = bind (eval code v e1) (fun p => ret p) w').
    { unfold bind. destruct (eval code v e1 w') as [w2 [x|n|]]; reflexivity. }
    rewrite Eb. eapply sims_bind.
    + eapply (code_of_blks Hb); eauto.
    + intros x [y e2] w2 [Hxy Off2]. cbn [fst snd] in *. subst y.
      eexists. split; [reflexivity|]. cbn [fst snd]. split; auto.
      assert (O : same_off (P ++ A ++ slots body) e e2).
      { apply off_trans with e1; [eapply off_incl; [|exact Off]|eapply off_incl; [|exact Off2]].
        - apply incl_appl, incl_refl.
        - apply incl_appr, incl_appr, incl_refl. }
      split; auto. eapply valid_mono; [| |exact V]; [intros i0 Hi0; left; exact Hi0|]. eapply agree_off; eauto.
      intros i Hi Hin. exact (proj1 (proj2 B _ Hin) Hi).
Qed.

Lemma all_ok : (forall b, blk_ok b) /\ (forall a, arg_ok a).
Proof.
  assert (E : forall e, Forall blk_ok e -> arg_ok (AExpr e)).
  { intros e H S g r en h L V B v w. rewrite link_expr in L.
    destruct (link g e) as [c| |] eqn:Ec; try discriminate L. injection L as <-.
    rewrite resolve_expr, means_expr.
    assert (X := code_of_blks H Ec V B v w). unfold bind.
    unfold sims in X. destruct (means e r v w) as [w' [x|n|]].
    - destruct X as ([y e'] & -> & [Hy _]). cbn in *. subst. reflexivity.
    - rewrite X. reflexivity.
    - rewrite X. reflexivity. }
  assert (L : forall v, arg_ok (ALit v)).
  { intros v S g r e h L V B i w. cbn in L. injection L as <-. reflexivity. }
  assert (X : forall x, arg_ok (AVar x)).
  { intros x S g r e h Lk V B i w. cbn in Lk. specialize (V x). cbn [arg_means].
    destruct (g x) as [h'|]; [|discriminate]. injection Lk as <-. destruct (r x); [|easy].
    apply V. apply agree_refl. }
  split; [apply (@blk_ind2 blk_ok arg_ok)|apply (@arg_ind2 blk_ok arg_ok)]; auto using op_ok, call_ok.
Qed.

Lemma all_code bs : code_ok bs.
Proof. apply code_of_blks, Forall_forall. intros b _. apply all_ok. Qed.

End Link.
