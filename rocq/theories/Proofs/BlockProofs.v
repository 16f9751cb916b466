From Coq Require Import String List Bool NArith Lia Permutation.
From Verif Require Import Model.Base Model.Block Spec.BlockSpec Proofs.RegistryProofs.
Import ListNotations.

Definition of_order A (fs : list str) (xs : list A) (c : N) : blk A := {| b_flags := rev fs; b_args := rev xs; b_count := c |}.

Lemma pop_end_rev : forall B (l : list B), pop_end (rev l) = match l with [] => None | x :: r => Some (x, rev r) end.
Proof. intros B l. unfold pop_end. rewrite rev_involutive. reflexivity. Qed.

Lemma remove_first_none : forall n l, remove_first n l = None <-> ~ In n l.
Proof.
  induction l as [|x r IH]; cbn; [tauto|]. destruct (str_eqb x n) eqn:E.
  - apply str_eqb_eq in E. subst. split; [discriminate|]. intros H. exfalso. auto.
  - destruct (remove_first n r) as [[y r']|].
    + split; [discriminate|]. intros H. exfalso. assert (K: ~ In n r) by auto. apply IH in K. discriminate.
    + split; auto. intros _ [->|H]. rewrite (proj2 (str_eqb_eq n n) eq_refl) in E. discriminate. apply IH in H; auto.
Qed.

Lemma remove_first_split : forall n a b, ~ In n a -> remove_first n (a ++ n :: b) = Some (n, a ++ b).
Proof.
  induction a as [|x r IH]; intros b NI; cbn.
  - rewrite (proj2 (str_eqb_eq n n) eq_refl). reflexivity.
  - destruct (str_eqb x n) eqn:E. { apply str_eqb_eq in E. subst. exfalso. apply NI. cbn. auto. }
    rewrite IH; auto. intros I. apply NI. cbn. auto.
Qed.

Lemma last_split : forall (n : str) l, In n l -> exists a b, l = a ++ n :: b /\ ~ In n b.
Proof.
  intros n l. induction l as [|x r IH]; intros I; [destruct I|].
  destruct (in_dec (list_eq_dec N.eq_dec) n r) as [J|J].
  - destruct (IH J) as (a & b & -> & K). exists (x :: a), b. auto.
  - destruct I as [->|I]; [|contradiction]. exists [], r. auto.
Qed.

(** the machine follows [takes] *)
Lemma run_takes : forall A R (o : op A R) fs xs l r fs' xs', takes o fs xs l r fs' xs' -> forall c,
  run_op o (of_order A fs xs c) =
  (match fs', xs' with _ :: _, _ => Err 2 | [], _ :: _ => Err 3 | [], [] => Ok r end, l).
Proof.
  induction 1; intros c0; cbn [run_op].
  - unfold finalise, of_order. cbn. destruct fs as [|f fs]; cbn.
    + destruct xs as [|x xs]; cbn; [reflexivity|]. destruct (rev xs ++ [x]) eqn:E; [|reflexivity].
      apply app_eq_nil in E. destruct E; discriminate.
    + destruct (rev fs ++ [f]) eqn:E; [|reflexivity]. apply app_eq_nil in E. destruct E; discriminate.
  - unfold next_arg. unfold of_order at 1. cbn [b_args]. rewrite pop_end_rev. cbn [b_flags b_count].
    change {| b_flags := b_flags (of_order A fs (x :: xs) c0); b_args := rev xs; b_count := ((b_count (of_order A fs (x :: xs) c0) + 1) mod 256)%N |}
      with (of_order A fs xs ((c0 + 1) mod 256)%N). rewrite IHtakes. reflexivity.
  - unfold next_arg. unfold of_order at 1. cbn [b_args]. rewrite pop_end_rev. cbn [b_flags b_count].
    change {| b_flags := b_flags (of_order A fs (x :: xs) c0); b_args := rev xs; b_count := ((b_count (of_order A fs (x :: xs) c0) + 1) mod 256)%N |}
      with (of_order A fs xs ((c0 + 1) mod 256)%N). rewrite IHtakes. reflexivity.
  - unfold next_arg. cbn. rewrite IHtakes. reflexivity.
  - unfold get_flag. unfold of_order at 1. cbn [b_flags]. rewrite pop_end_rev. cbn [b_args b_count].
    change {| b_flags := rev fs; b_args := b_args (of_order A (f :: fs) xs c0); b_count := b_count (of_order A (f :: fs) xs c0) |}
      with (of_order A fs xs c0). rewrite IHtakes. reflexivity.
  - unfold get_flag. cbn. apply IHtakes.
  - unfold get_flag. unfold of_order at 1. cbn [b_flags]. rewrite rev_app_distr. cbn [rev app]. rewrite <- app_assoc. cbn [app].
    rewrite remove_first_split by (rewrite <- in_rev; auto).
    rewrite <- rev_app_distr.
    change {| b_flags := rev (a ++ b); b_args := b_args (of_order A (a ++ n :: b) xs c0); b_count := b_count (of_order A (a ++ n :: b) xs c0) |}
      with (of_order A (a ++ b) xs c0). rewrite IHtakes. reflexivity.
  - unfold get_flag. unfold of_order at 1. cbn [b_flags]. rewrite (proj2 (remove_first_none n (rev fs))) by (rewrite <- in_rev; auto).
    apply IHtakes.
  - unfold of_order at 1. cbn [b_args]. rewrite rev_length. apply IHtakes.
  - unfold of_order at 1. cbn [b_args]. rewrite pop_end_rev.
    replace (match match xs with [] => None | x :: r0 => Some (x, rev r0) end with Some (a, _) => Some a | None => None end) with (hd_error xs)
      by (destruct xs; reflexivity). apply IHtakes.
  - unfold of_order at 1. cbn [b_args].
    replace (match rev xs with [] => None | a :: _ => Some a end) with (hd_error (rev xs)) by (destruct (rev xs); reflexivity).
    apply IHtakes.
  - unfold of_order at 1. cbn [b_args]. rewrite pop_end_rev. apply IHtakes.
Qed.

(** every run either errs on its own or is described by [takes] *)
Lemma run_or : forall A R (o : op A R) fs xs c,
  (exists l r fs' xs', takes o fs xs l r fs' xs') \/
  (exists e l, run_op o (of_order A fs xs c) = (Err e, l) /\ (e = 1 \/ e = 4)).
Proof.
  induction o as [r| |k IH|k IH|name k IH|k IH|k IH|k IH|k IH]; intros fs xs c; cbn [run_op].
  - left. exists [], r, fs, xs. constructor.
  - right. exists 4, []. auto.
  - unfold next_arg. unfold of_order at 1. cbn [b_args]. rewrite pop_end_rev. destruct xs as [|x xs].
    + right. exists 1, []. auto.
    + destruct (IH x fs xs ((c + 1) mod 256)%N) as [(l & r & f & y & T)|(e & l & E & K)].
      * left. exists (GArg x :: l), r, f, y. constructor; auto.
      * right. exists e, (GArg x :: l). unfold of_order in E |- *. cbn in E |- *. rewrite E. auto.
  - unfold next_arg. unfold of_order at 1. cbn [b_args]. rewrite pop_end_rev. destruct xs as [|x xs].
    + destruct (IH None fs [] c) as [(l & r & f & y & T)|H]; [left|right; exact H].
      exists l, r, f, y. constructor; auto.
    + destruct (IH (Some x) fs xs ((c + 1) mod 256)%N) as [(l & r & f & y & T)|(e & l & E & K)].
      * left. exists (GArg x :: l), r, f, y. constructor; auto.
      * right. exists e, (GArg x :: l). unfold of_order in E |- *. cbn in E |- *. rewrite E. auto.
  - destruct name as [n|].
    + destruct (in_dec (list_eq_dec N.eq_dec) n fs) as [I|NI].
      * destruct (last_split n fs I) as (a & b & -> & NB).
        destruct (IH (Some n) (a ++ b) xs c) as [(l & r & f & y & T)|(e & l & E & K)].
        -- left. exists (GFlag n :: l), r, f, y. constructor; auto.
        -- right. exists e, (GFlag n :: l). unfold get_flag. unfold of_order at 1. cbn [b_flags].
           rewrite rev_app_distr. cbn [rev app]. rewrite <- app_assoc. cbn [app].
           rewrite remove_first_split by (rewrite <- in_rev; auto). rewrite <- rev_app_distr.
           unfold of_order in E |- *. cbn [b_args b_count]. rewrite E. auto.
      * destruct (IH None fs xs c) as [(l & r & f & y & T)|(e & l & E & K)].
        -- left. exists l, r, f, y. apply T_named0; auto.
        -- right. exists e, l. unfold get_flag. unfold of_order at 1. cbn [b_flags].
           rewrite (proj2 (remove_first_none n (rev fs))) by (rewrite <- in_rev; auto). auto.
    + destruct fs as [|f0 fs].
      * destruct (IH None [] xs c) as [(l & r & f & y & T)|H]; [left|right; exact H].
        exists l, r, f, y. constructor; auto.
      * destruct (IH (Some f0) fs xs c) as [(l & r & f & y & T)|(e & l & E & K)].
        -- left. exists (GFlag f0 :: l), r, f, y. constructor; auto.
        -- right. exists e, (GFlag f0 :: l). unfold get_flag. unfold of_order at 1. cbn [b_flags]. rewrite pop_end_rev.
           unfold of_order in E |- *. cbn [b_args b_count]. rewrite E. auto.
  - unfold of_order at 1. cbn [b_args]. rewrite rev_length.
    destruct (IH (length xs) fs xs c) as [(l & r & f & y & T)|H]; [left|right; exact H].
    exists l, r, f, y. constructor; auto.
  - unfold of_order at 1. cbn [b_args]. rewrite pop_end_rev.
    replace (match match xs with [] => None | x :: r0 => Some (x, rev r0) end with Some (a, _) => Some a | None => None end) with (hd_error xs)
      by (destruct xs; reflexivity).
    destruct (IH (hd_error xs) fs xs c) as [(l & r & f & y & T)|H]; [left|right; exact H].
    exists l, r, f, y. constructor; auto.
  - unfold of_order at 1. cbn [b_args].
    replace (match rev xs with [] => None | a :: _ => Some a end) with (hd_error (rev xs)) by (destruct (rev xs); reflexivity).
    destruct (IH (hd_error (rev xs)) fs xs c) as [(l & r & f & y & T)|H]; [left|right; exact H].
    exists l, r, f, y. constructor; auto.
  - unfold of_order at 1. cbn [b_args]. rewrite pop_end_rev. destruct xs as [|x xs].
    + right. exists 1, []. auto.
    + destruct (IH x fs (x :: xs) c) as [(l & r & f & y & T)|H]; [left|right; exact H].
      exists l, r, f, y. constructor; auto.
Qed.

Lemma exact_intrinsic : forall A R (o : op A R) fs xs l r,
  compile_intrinsic o fs xs = (Ok r, l) <-> takes o fs xs l r [] [].
Proof.
  intros A R o fs xs l r. unfold compile_intrinsic. change (construct fs xs) with (of_order A fs xs 0). split.
  - intros H. destruct (run_or A R o fs xs 0) as [(l' & r' & f' & x' & T)|(e & l' & E & _)]; [|congruence].
    pose proof (run_takes _ _ _ _ _ _ _ _ _ T 0%N) as E. rewrite H in E.
    destruct f', x'; inversion E; subst. exact T.
  - intros T. rewrite (run_takes _ _ _ _ _ _ _ _ _ T). reflexivity.
Qed.

Lemma takes_split : forall A R (o : op A R) fs xs l r fs' xs', takes o fs xs l r fs' xs' ->
  xs = args_of l ++ xs' /\ Permutation fs (flags_of l ++ fs').
Proof.
  induction 1; cbn [args_of flags_of app]; try (destruct IHtakes as [E P]).
  - split; reflexivity.
  - split; [now f_equal|exact P].
  - split; [now f_equal|exact P].
  - split; assumption.
  - split; [exact E|]. now constructor.
  - split; assumption.
  - split; [exact E|]. etransitivity; [symmetry; apply Permutation_middle|]. constructor. exact P.
  - split; assumption.
  - split; assumption.
  - split; assumption.
  - split; assumption.
  - split; assumption.
Qed.

Lemma consumed : forall A R (o : op A R) fs xs l r, compile_intrinsic o fs xs = (Ok r, l) ->
  args_of l = xs /\ Permutation (flags_of l) fs.
Proof.
  intros A R o fs xs l r H. apply exact_intrinsic in H. apply takes_split in H. rewrite !app_nil_r in H.
  destruct H as [-> P]. split; auto. symmetry. exact P.
Qed.

Lemma leftover : forall A R (o : op A R) fs xs l r fs' xs', takes o fs xs l r fs' xs' -> fs' <> [] \/ xs' <> [] ->
  fst (compile_intrinsic o fs xs) = Err (match fs' with [] => 3 | _ => 2 end).
Proof.
  intros A R o fs xs l r fs' xs' T H. unfold compile_intrinsic. change (construct fs xs) with (of_order A fs xs 0).
  rewrite (run_takes _ _ _ _ _ _ _ _ _ T). destruct fs', xs'; cbn; auto. destruct H; congruence.
Qed.

Lemma ask_short : forall A R n (k : list A -> op A R) fs xs c, length xs < n -> fst (run_op (ask n k) (of_order A fs xs c)) = Err 1.
Proof.
  induction n as [|n IH]; intros k fs xs c L; [lia|]. cbn [ask run_op]. unfold next_arg. unfold of_order at 1. cbn [b_args].
  rewrite pop_end_rev. destruct xs as [|x xs]; [reflexivity|]. cbn [b_flags b_count].
  change {| b_flags := b_flags (of_order A fs (x :: xs) c); b_args := rev xs; b_count := ((b_count (of_order A fs (x :: xs) c) + 1) mod 256)%N |}
    with (of_order A fs xs ((c + 1) mod 256)%N).
  specialize (IH (fun l => k (x :: l)) fs xs ((c + 1) mod 256)%N). cbn in L. destruct (run_op _ _). cbn in *. apply IH. lia.
Qed.

Lemma too_few : forall A R n (k : list A -> op A R) fs xs, length xs < n -> fst (compile_intrinsic (ask n k) fs xs) = Err 1.
Proof. intros. apply (ask_short A R n k fs xs 0%N). auto. Qed.

(** ** definitions *)
Lemma def_params_success : forall A (st : A -> pstat) params idx xs cps lg out,
  def_params st params idx (rev xs) cps lg = Ok (Success out) ->
  length xs = length params /\ out = cps ++ call_positions idx params /\ lg = false.
Proof.
  induction params as [|p rest IH]; intros idx xs cps lg out H; cbn [def_params] in H.
  - destruct (rev xs) eqn:E; [|discriminate]. destruct lg; inversion H; subst.
    apply (f_equal (@length A)) in E. rewrite rev_length in E. cbn in *. rewrite app_nil_r. auto.
  - rewrite pop_end_rev in H. destruct xs as [|x xs]; [discriminate|].
    destruct p, (st x); try discriminate; apply IH in H; destruct H as (L & -> & E); try discriminate;
      cbn; rewrite <- ?app_assoc; auto.
Qed.

Lemma def_params_never : forall A (st : A -> pstat) params idx xs cps lg inj,
  def_params st params idx (rev xs) cps lg = Ok inj -> inj <> UnknownReturnTy -> length xs = length params.
Proof.
  induction params as [|p rest IH]; intros idx xs cps lg inj H NU; cbn [def_params] in H.
  - destruct (rev xs) eqn:E; [|discriminate]. apply (f_equal (@length A)) in E. rewrite rev_length in E. exact E.
  - rewrite pop_end_rev in H. destruct xs as [|x xs]; [discriminate|].
    destruct p, (st x); try discriminate; try (apply IH in H; [cbn; auto|assumption]).
    inversion H; subst. congruence.
Qed.

Lemma call_positions_args : forall A params i (pre xs : list A), length pre = i -> length xs = length params ->
  fold_right (fun i r => let? l := r in match nth_error (pre ++ xs) i with Some a => Ok (a :: l) | None => Panic end) (Ok [])
    (call_positions i params) = Ok (call_args params xs).
Proof.
  induction params as [|p r IH]; intros i pre xs L1 L2; [destruct xs; reflexivity|].
  destruct xs as [|x xs]; [discriminate|].
  assert (E: pre ++ x :: xs = (pre ++ [x]) ++ xs) by (rewrite <- app_assoc; reflexivity).
  destruct p; cbn [call_positions call_args fold_right].
  - rewrite E. apply IH. rewrite app_length. cbn. lia. cbn in L2. lia.
  - rewrite E, IH; [|rewrite app_length; cbn; lia|cbn in L2; lia].
    cbn [rbind]. rewrite <- E, nth_error_app2, L1, PeanoNat.Nat.sub_diag; [reflexivity|lia].
Qed.

Lemma map_def_success : forall A (st : A -> pstat) params fs xs out, map_def_params st params fs xs = Ok (Success out) ->
  fs = [] /\ length xs = length params /\ compile_def xs (Some out) = Ok (call_args params xs).
Proof.
  intros A st params fs xs out H. destruct fs; [|discriminate]. apply def_params_success in H. destruct H as (L & -> & _).
  split; auto. split; auto. apply (call_positions_args A params 0 [] xs); auto.
Qed.

Definition settled A (params : list pkind) (fs : list str) (xs : list A) (e : option (list nat)) : Prop :=
  match e with Some out => fs = [] /\ length xs = length params /\ compile_def xs (Some out) = Ok (call_args params xs) | None => True end.

Lemma passes_result : forall A params fs (xs : list A) passes e l, settled A params fs xs e ->
  def_passes params fs xs passes e = Ok l ->
  (fs = [] /\ length xs = length params /\ l = call_args params xs) \/
  (fs = [] /\ l = [] /\ e = None /\ exists st, In (st, true) passes /\
     (map_def_params st params fs xs = Ok UnknownReturnTy \/
      map_def_params st params fs xs = Ok LgChange /\ length xs = length params)).
Proof.
  intros A params fs xs. induction passes as [|[st body] rest IH]; intros e l S H; cbn [def_passes] in H; [discriminate|].
  destruct e as [out|].
  - cbn [rbind] in H. destruct body.
    + destruct S as (-> & L & E). rewrite E in H. inversion H; subst. auto.
    + apply IH in H; auto. destruct H as [H|(? & ? & ? & ?)]; [auto|discriminate].
  - destruct (map_def_params st params fs xs) as [[out| |]| |] eqn:M; cbn [rbind] in H; try discriminate.
    + apply map_def_success in M. destruct body.
      * destruct M as (-> & L & E). rewrite E in H. inversion H; subst. auto.
      * apply IH in H; auto. destruct H as [H|(? & ? & ? & ?)]; [auto|discriminate].
    + assert (F: fs = []) by (destruct fs; [auto|discriminate]). destruct body.
      * cbn in H. inversion H; subst. right. repeat split; auto. exists st. split; [cbn; auto|]. right. split; auto.
        eapply def_params_never. exact M. discriminate.
      * apply IH in H; auto. destruct H as [H|(H1 & H2 & _ & st' & I & K)]; [auto|]. right. repeat split; auto.
        exists st'. split; [cbn; auto|]. destruct K as [K|K]; auto.
    + assert (F: fs = []) by (destruct fs; [auto|discriminate]). destruct body.
      * cbn in H. inversion H; subst. right. repeat split; auto. exists st. split; [cbn; auto|]. left. auto.
      * apply IH in H; auto. destruct H as [H|(H1 & H2 & _ & st' & I & K)]; [auto|]. right. repeat split; auto.
        exists st'. split; [cbn; auto|]. destruct K as [K|K]; auto.
Qed.

Lemma def_call : forall A params fs (xs : list A) passes l, def_passes params fs xs passes None = Ok l ->
  (forall st, In (st, true) passes -> exists out, map_def_params st params fs xs = Ok (Success out) \/ exists e, map_def_params st params fs xs = Err e) ->
  fs = [] /\ length xs = length params /\ l = call_args params xs.
Proof.
  intros A params fs xs passes l H K. apply passes_result in H; [|exact I]. destruct H as [H|(_ & _ & _ & st & J & M)]; auto.
  destruct (K st J) as (out & [E|(e & E)]); destruct M as [M|[M _]]; congruence.
Qed.

Lemma def_flags : forall A params f fs (xs : list A) passes l, def_passes params (f :: fs) xs passes None <> Ok l.
Proof.
  intros A params f fs xs passes l H. apply passes_result in H; [|exact I].
  destruct H as [(H & _)|(H & _)]; discriminate.
Qed.

Lemma passes_cases : forall A params fs (xs : list A) passes l, def_passes params fs xs passes None = Ok l ->
  (fs = [] /\ length xs = length params /\ l = call_args params xs) \/
  (fs = [] /\ l = [] /\ exists st, In (st, true) passes /\
     (map_def_params st params fs xs = Ok UnknownReturnTy \/
      map_def_params st params fs xs = Ok LgChange /\ length xs = length params)).
Proof. intros. apply passes_result in H; [|exact I]. tauto. Qed.
