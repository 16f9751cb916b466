(** Definitions use only what exists, so fresh names make no cycles. *)
From Coq Require Import String List ZArith NArith Bool Arith Lia.
From Verif Require Import Model.Base Model.Value Model.Ast Model.Registry Model.AstGraph Spec.AstGraphSpec Spec.RegistrySpec
  Proofs.RegistryProofs Proofs.AstFlatProofs Proofs.AstGraphProofs.
Import ListNotations.

(** ** The check *)
Fixpoint esum (l : list expr) : nat := match l with [] => 0 | e :: l => size_expr e + esum l end.
Lemma check_blocks_spec : forall m bs,
  match check_blocks m bs with
  | Ok es => (forall b, In b bs -> exists t, blk_op b = Ok t /\ contains_op m (tg_str t) = true) /\
             (forall e, In e es <-> exists b, In b bs /\ In (TArg (AExpr e)) (blk_terms b)) /\
             esum es <= size_blocks bs
  | _ => exists b, In b bs /\ forall t, blk_op b = Ok t -> contains_op m (tg_str t) = false
  end.
Proof.
  intros m. induction bs as [|b bs IH]; cbn [check_blocks].
  - split; [intros b []|]. split; [|cbn; lia]. intros e. split; [intros []|intros (b & [] & _)].
  - assert (SB : forall e, In e (sub_exprs b) <-> In (TArg (AExpr e)) (blk_terms b)).
    { intros e. unfold sub_exprs. rewrite in_flat_map. split.
      - intros (t & It & Ie). destruct t as [[]|]; cbn in Ie; try tauto. destruct Ie as [->|[]]. auto.
      - intros I. exists (TArg (AExpr e)). split; [auto|]. now left. }
    assert (SZ : esum (sub_exprs b) <= size_terms (blk_terms b)).
    { unfold sub_exprs. clear. induction (blk_terms b) as [|t ts IHt]; [cbn; lia|]. cbn [flat_map]. rewrite size_terms_cons.
      destruct t as [[x|z x|c x|x|e]|x]; cbn [app]; try (cbn [size_term]; lia). cbn [esum size_term size_arg]. lia. }
    destruct (blk_op b) as [t|x|] eqn:E; cbn [rbind].
    + destruct (contains_op m (tg_str t)) eqn:C.
      * destruct (check_blocks m bs) as [es|x|]; cbn [rbind].
        -- destruct IH as (A & B & D). split; [|split].
           ++ intros b' [<-|I]; eauto.
           ++ intros e. rewrite in_app_iff, SB, B. split.
              ** intros [I|(b' & I1 & I2)]; [exists b; split; [now left|auto]|exists b'; split; [now right|auto]].
              ** intros (b' & [<-|I1] & I2); [auto|right; eauto].
           ++ rewrite size_blocks_cons. assert (X := size_block_terms b).
              assert (Y : forall l1 l2, esum (l1 ++ l2) = esum l1 + esum l2).
              { clear. induction l1 as [|y l1 IH]; intros l2; cbn [app esum]; [lia|]. rewrite IH. lia. }
              rewrite Y. lia.
        -- destruct IH as (b' & I & H). exists b'. split; [now right|auto].
        -- destruct IH as (b' & I & H). exists b'. split; [now right|auto].
      * exists b. split; [now left|]. intros t' Et. congruence.
    + exists b. split; [now left|]. intros t' Et. congruence.
    + exists b. split; [now left|]. intros t' Et. congruence.
Qed.

Definition fine (m : impls) (e : expr) : Prop := pathless e /\ forall x, occurs x e -> contains_op m x = true.
Lemma fine_unfold : forall m e, fine m e <->
  (forall b, In b (ex_blocks e) -> exists t, blk_op b = Ok t /\ contains_op m (tg_str t) = true) /\
  (forall b e', In b (ex_blocks e) -> In (TArg (AExpr e')) (blk_terms b) -> fine m e').
Proof.
  intros m e. split.
  - intros [P O]. inversion P as [e0 P1 P2]; subst. split.
    + intros b Ib. destruct (P1 b Ib) as (t & E). exists t. split; [auto|]. apply O. eapply occurs_here; eauto.
    + intros b e' Ib It. split; [eauto|]. intros x Ox. apply O. eapply occurs_sub; eauto.
  - intros [A B]. split.
    + constructor; [intros b Ib; destruct (A b Ib) as (t & E & _); eauto|]. intros b e' Ib It. exact (proj1 (B b e' Ib It)).
    + intros x Ox. inversion Ox as [e0 b t Ib E Et|e0 b e' Ib It O]; subst.
      * destruct (A b Ib) as (t' & E' & C). congruence.
      * exact (proj2 (B b e' Ib It) x O).
Qed.
Lemma check_exprs_spec : forall m fuel st, esum st <= fuel ->
  (check_exprs fuel m st = Ok tt <-> Forall (fine m) st).
Proof.
  intros m. assert (Y : forall l1 l2, esum (l1 ++ l2) = esum l1 + esum l2).
  { induction l1 as [|y l1 IH]; intros l2; cbn [app esum]; [lia|]. rewrite IH. lia. }
  assert (Yr : forall l1, esum (rev l1) = esum l1).
  { induction l1 as [|y l1 IH]; [reflexivity|]. cbn [rev]. rewrite Y, IH. cbn [esum]. lia. }
  induction fuel as [|fuel IH]; intros st L; (destruct st as [|e st]; cbn [check_exprs]; [split; [constructor|auto]|]); cbn [esum] in L;
    rewrite size_expr_eq in L; [lia|].
  assert (C := check_blocks_spec m (ex_blocks e)). destruct (check_blocks m (ex_blocks e)) as [es|x|]; cbn [rbind].
  - destruct C as (A & B & D). rewrite IH by (rewrite Y, Yr; lia). rewrite Forall_app. split.
    + intros [F1 F2]. constructor; [|auto]. apply fine_unfold. split; [auto|]. intros b e' Ib It. rewrite Forall_forall in F1. apply F1.
      apply in_rev. rewrite rev_involutive. apply B. eauto.
    + intros F. inversion F as [|? ? F1 F2]; subst. split; [|auto]. apply Forall_forall. intros e' Ie. apply in_rev in Ie. apply B in Ie.
      destruct Ie as (b & Ib & It). apply fine_unfold in F1. destruct F1 as [_ F1]. eauto.
  - split; [discriminate|]. intros F. inversion F as [|? ? F1 F2]; subst. apply fine_unfold in F1. destruct F1 as [F1 _].
    destruct C as (b & Ib & H). destruct (F1 b Ib) as (t & E & C). rewrite (H t E) in C. discriminate.
  - split; [discriminate|]. intros F. inversion F as [|? ? F1 F2]; subst. apply fine_unfold in F1. destruct F1 as [F1 _].
    destruct C as (b & Ib & H). destruct (F1 b Ib) as (t & E & C). rewrite (H t E) in C. discriminate.
Qed.
Lemma check_spec : forall m d, assert_all_ops_defined m d = Ok tt <-> pathless (d_expr d) /\ forall x, occurs x (d_expr d) -> contains_op m x = true.
Proof.
  intros m d. unfold assert_all_ops_defined. rewrite check_exprs_spec by (cbn [esum]; lia). split.
  - intros F. inversion F; subst. assumption.
  - intros F. constructor; [exact F|constructor].
Qed.
Lemma accepted_only : forall s d s', process false s (CDef d) = (Ok tt, s') ->
  pathless (d_expr d) /\ forall x, occurs x (d_expr d) -> contains_op (df_impls s) x = true.
Proof.
  intros s d s' H. cbn [process] in H. unfold process_impl in H. destruct (assert_all_ops_defined (df_impls s) d) as [[]| |] eqn:E; try discriminate.
  now apply check_spec.
Qed.

(** ** Histories *)
Lemma occurs_bound : forall (rank : str -> nat) k e, size_expr e <= k -> exists B, forall x, occurs x e -> rank x < B.
Proof.
  intros rank. induction k as [|k IH]; intros e L; [destruct e; cbn in L; lia|].
  assert (TS : forall ts, size_terms ts <= k -> exists B, forall e', In (TArg (AExpr e')) ts -> forall x, occurs x e' -> rank x < B).
  { induction ts as [|t ts IHt]; intros Lt; [exists 0; intros e' []|]. rewrite size_terms_cons in Lt. destruct IHt as (B1 & H1); [lia|].
    assert (X : exists B2, forall e', t = TArg (AExpr e') -> forall x, occurs x e' -> rank x < B2).
    { destruct t as [[x|z x|c x|x|e0]|x]; try (exists 0; intros e' Q; discriminate Q).
      destruct (IH e0) as (B2 & H2); [cbn [size_term size_arg] in Lt; lia|]. exists B2. intros e' Q. injection Q as <-. auto. }
    destruct X as (B2 & H2). exists (B1 + B2). intros e' [->|I] x O; [specialize (H2 e' eq_refl x O); lia|specialize (H1 e' I x O); lia]. }
  rewrite size_expr_eq in L.
  assert (BS : forall bs, size_blocks bs <= k -> exists B, forall x, occurs_bs x bs -> rank x < B).
  { induction bs as [|b bs IHb]; intros Lb; [exists 0; intros x (b & [] & _)|]. rewrite size_blocks_cons in Lb. destruct IHb as (B1 & H1); [lia|].
    assert (X := size_block_terms b). destruct (TS (blk_terms b)) as (B2 & H2); [lia|].
    exists (B1 + B2 + match blk_op b with Ok t => S (rank (tg_str t)) | _ => 0 end).
    intros x (b' & [<-|I] & O).
    - destruct O as [(t & E & <-)|(e' & It & O)]; [rewrite E; lia|specialize (H2 e' It x O); lia].
    - assert (Q : occurs_bs x bs) by (exists b'; auto). specialize (H1 x Q). lia. }
  destruct (BS (ex_blocks e)) as (B & H); [lia|]. exists B. intros x O. apply H. now apply occurs_bs_expr.
Qed.

Lemma has_impl_kat : forall m op i, good m -> (has_impl m op i <-> exists key, kat m op key = Some i).
Proof.
  intros m op i [U TU]. split.
  - intros (k & I & H). assert (E : alookup str_eqb op m = Some k).
    { apply uniq_nodup in U. clear -U I. induction m as [|[a b] m IH]; [destruct I|]. cbn in *. inversion U; subst. destruct (str_eqb_spec a op) as [->|ne].
      - destruct I as [I|I]; [congruence|]. exfalso. apply H1. change op with (fst (op, k)). now apply in_map.
      - destruct I as [I|I]; [congruence|auto]. }
    destruct H as [H|(t & H)]; [exists None; unfold kat; now rewrite E|]. exists (Some t). unfold kat. rewrite E. cbn.
    destruct (alookup ty_eqb t (k_tys k)) as [i'|] eqn:Ea.
    + apply alookup_in in Ea. destruct Ea as (t3 & I3 & M3). destruct (In_nth_error _ _ H) as [a Ha]. destruct (In_nth_error _ _ I3) as [b Hb].
      assert (a = b). { apply (TU _ _ I _ _ _ _ Ha Hb). cbn. now rewrite ty_eqb_sym. }
      subst b. congruence.
    + exfalso. clear -Ea H. induction (k_tys k) as [|[a b] l IH]; [destruct H|]. cbn in Ea. destruct (ty_eqb a t) eqn:E; [discriminate|].
      destruct H as [H|H]; [|auto]. injection H as -> ->. rewrite ty_eqb_refl in E. discriminate.
  - intros (key & H). unfold kat in H. destruct (alookup str_eqb op m) as [k|] eqn:E; [|discriminate]. apply alookup_in_str in E. exists k. split; [auto|].
    destruct key as [t|]; [|now left]. right. cbn in H. apply alookup_in in H. destruct H as (t' & I & _). eauto.
Qed.
Lemma has_impl_contains : forall m op i, has_impl m op i -> contains_op m op = true.
Proof.
  intros m op i (k & I & _). unfold contains_op. destruct (alookup str_eqb op m) eqn:E; [auto|]. exfalso. induction m as [|[a b] m IH]; [destruct I|].
  cbn in E. destruct (str_eqb_spec a op) as [->|ne]; [discriminate|]. destruct I as [I|I]; [congruence|auto].
Qed.

Lemma process_def_of : forall s c r s' op d, good (df_impls s) -> process false s c = (r, s') -> has_impl (df_impls s') op (IDef d) ->
  has_impl (df_impls s) op (IDef d) \/ (c = CDef d /\ r = Ok tt /\ op = d_name d).
Proof.
  intros s c r s' op d G H HI. destruct (step_lookup _ _ _ _ G H) as [G' L]. apply (has_impl_kat _ _ _ G') in HI. destruct HI as (key & K).
  rewrite L in K.
  assert (OLD : forall cur, cur = kat (df_impls s) op key -> cur = Some (IDef d) -> has_impl (df_impls s) op (IDef d)).
  { intros cur E1 E2. apply (has_impl_kat _ _ _ G). exists key. congruence. }
  destruct r as [[]|x|]; cbn [event_of] in K.
  - destruct c as [d0|p|f]; cbn [upd] in K.
    + destruct (str_eqb_spec (d_name d0) op) as [E|ne]; cbn [andb] in K; [|left; eapply OLD; eauto].
      destruct (key_eqb _ key); [|left; eapply OLD; eauto]. injection K as ->. right. auto.
    + destruct (get_type (df_types s') (pt_name p)) as [[]|]; cbn [upd] in K; try (left; eapply OLD; eauto; fail).
      destruct key as [t|]; [left; eapply OLD; eauto|]. destruct (constructs d0 op); [discriminate|left; eapply OLD; eauto].
    + destruct (kat (df_impls s) op key) as [i|] eqn:E; [|discriminate]. left. apply (OLD (Some i)); auto.
      destruct (im_loc i); [auto| |discriminate]. destruct f; [auto|discriminate].
  - left; eapply OLD; eauto.
  - left; eapply OLD; eauto.
Qed.

Definition ok_state (used : str -> Prop) (s : defs) : Prop :=
  good (df_impls s) /\ acyclic (df_impls s) /\ (forall a b, calls (df_impls s) a b -> used b) /\
  forall a, contains_op (df_impls s) a = true -> used a.
Lemma ok_step : forall used s c r s', ok_state used s -> process false s c = (r, s') ->
  (match c with CDef d => r = Ok tt -> ~ used (d_name d) | _ => True end) ->
  ok_state (fun op => used op \/ contains_op (df_impls s') op = true) s'.
Proof.
  intros used s c r s' (G & (rank & R) & U & C) H F. destruct (step_lookup _ _ _ _ G H) as [G' _].
  assert (CALL : forall a b, calls (df_impls s') a b -> calls (df_impls s) a b \/ exists d, c = CDef d /\ r = Ok tt /\ a = d_name d /\ occurs b (d_expr d)).
  { intros a b (d & HI & O). destruct (process_def_of _ _ _ _ _ _ G H HI) as [X|(X & Y & Z)].
    - left. exists d. auto.
    - right. exists d. auto. }
  assert (ACC : forall d, c = CDef d -> r = Ok tt -> forall b, occurs b (d_expr d) -> used b).
  { intros d -> -> b O. apply C. destruct (accepted_only _ _ _ H) as [_ X]. auto. }
  split; [auto|]. split; [|split; [|auto]].
  - assert (Hd : (forall d, c = CDef d -> r = Ok tt -> False) \/ exists d, c = CDef d /\ r = Ok tt).
    { destruct c as [d|p|f]; [|left; intros d E; discriminate|left; intros d E; discriminate]. destruct r as [[]|x|]; [right; eauto| |]; left; intros d' _ E; discriminate. }
    destruct Hd as [No|(d & -> & ->)].
    + exists rank. intros a b Hc. destruct (CALL a b Hc) as [X|(d & X & Y & _)]; [auto|]. exfalso. eauto.
    + destruct (occurs_bound rank _ (d_expr d) (le_n _)) as (B & HB). exists (fun x => if str_eqb x (d_name d) then B else rank x).
      specialize (F eq_refl).
      intros a b Hc. assert (Ub : used b). { destruct (CALL a b Hc) as [X|(d' & X & Y & _ & O)]; [eauto|]. eapply ACC; eauto. }
      destruct (str_eqb_spec b (d_name d)) as [E|ne]; [subst; contradiction|].
      destruct (CALL a b Hc) as [X|(d' & X & _ & -> & O)].
      * assert (Ua : used a). { destruct X as (d' & HI & _). apply C. eapply has_impl_contains; eauto. }
        destruct (str_eqb_spec a (d_name d)) as [E|nea]; [subst; contradiction|auto].
      * injection X as <-. rewrite str_eqb_refl. auto.
  - intros a b Hc. left. destruct (CALL a b Hc) as [X|(d & X & Y & _ & O)]; eauto.
Qed.

Lemma acyclic_history : forall cs s (used : str -> Prop), wf_impls (df_impls s) -> acyclic (df_impls s) ->
  (forall a b, calls (df_impls s) a b -> used b) -> (forall a, contains_op (df_impls s) a = true -> used a) ->
  fresh_names s used cs -> acyclic (df_impls (snd (run false s cs))).
Proof.
  intros cs s used W A U C F. apply wf_good in W. assert (O : ok_state used s) by (split; auto). clear W A U C.
  revert s used O F. induction cs as [|c cs IH]; intros s used O F; cbn [run].
  - cbn. apply O.
  - cbn [fresh_names] in F. destruct (process false s c) as [r s'] eqn:E. cbn [fst snd] in F. destruct F as [F1 F2].
    assert (X := ok_step _ _ _ _ _ O E F1). specialize (IH _ _ X F2). destruct (run false s' cs) as [rs s2]. exact IH.
Qed.

(** ** Expansion *)
Lemma init_terminates : forall s e rank, (forall a b, calls (df_impls s) a b -> rank b < rank a) ->
  (forall x, occurs x e -> rank x < LOOPLIM) -> init s e <> Err 8.
Proof. intros s e rank R H. apply (init_ranked s rank); auto. Qed.
Lemma nodup_alookup : forall (m : impls) op k, NoDup (map fst m) -> In (op, k) m -> alookup str_eqb op m = Some k.
Proof.
  intros m op k U I. induction m as [|[a b] m IH]; [destruct I|]. cbn in *. inversion U; subst. destruct (str_eqb_spec a op) as [->|ne].
  - destruct I as [I|I]; [congruence|]. exfalso. apply H1. change op with (fst (op, k)). now apply in_map.
  - destruct I as [I|I]; [congruence|auto].
Qed.
Lemma init_too_deep : forall s e x, wf_impls (df_impls s) -> deep (df_impls s) (S LOOPLIM) x -> occurs x e -> forall r, init s e <> Ok r.
Proof.
  intros s e x [W _] D O. apply (init_deep s (deep (df_impls s)) e x); auto. intros n y Hy. inversion Hy as [|n' y' d z A B C]; subst.
  exists d, z. split; [|auto]. intros k I. apply (nodup_alookup _ _ _ W) in I. rewrite at_key_kat in A. unfold kat in A. rewrite I in A. exact A.
Qed.
Lemma init_cyclic : forall s e (X : str -> Prop) x, wf_impls (df_impls s) ->
  (forall x, X x -> exists d y, at_key (df_impls s) x None = Some (IDef d) /\ occurs y (d_expr d) /\ X y) ->
  X x -> occurs x e -> forall r, init s e <> Ok r.
Proof.
  intros s e X x W H Hx O. apply (init_too_deep s e x); auto. assert (D : forall n x, X x -> deep (df_impls s) n x).
  { induction n as [|n IH]; intros y Hy; [constructor|]. destruct (H y Hy) as (d & z & A & B & C). econstructor; eauto. }
  now apply D.
Qed.

(** A check that a rank decreases, for definitions without nested expressions. *)
Definition rank_block (rank : str -> nat) (n : nat) (b : block) : bool :=
  match blk_op b with Ok t => Nat.ltb (rank (tg_str t)) n | _ => true end &&
  forallb (fun t => match t with TArg (AExpr _) => false | _ => true end) (blk_terms b).
Definition rank_impl (rank : str -> nat) (n : nat) (i : impl) : bool :=
  match i with IDef d => forallb (rank_block rank n) (ex_blocks (d_expr d)) | _ => true end.
Definition rank_check (rank : str -> nat) (m : impls) : bool :=
  forallb (fun e => forallb (rank_impl rank (rank (fst e))) (map snd (k_tys (snd e)) ++ match k_any (snd e) with Some i => [i] | None => [] end)) m.
Lemma rank_check_sound : forall rank m, rank_check rank m = true -> forall a b, calls m a b -> rank b < rank a.
Proof.
  intros rank m H a b (d & (k & I & D) & O). unfold rank_check in H. rewrite forallb_forall in H. specialize (H _ I). cbn [fst snd] in H.
  rewrite forallb_forall in H. assert (X : rank_impl rank (rank a) (IDef d) = true).
  { apply H. apply in_or_app. destruct D as [->|(t & D)]; [right; now left|left]. change (IDef d) with (snd (t, IDef d)). now apply in_map. }
  cbn in X. rewrite forallb_forall in X. inversion O as [e0 b0 t Ib E Et|e0 b0 e' Ib It O']; subst; specialize (X _ Ib); unfold rank_block in X;
    apply andb_true_iff in X; destruct X as [X1 X2].
  - rewrite E in X1. now apply Nat.ltb_lt.
  - rewrite forallb_forall in X2. specialize (X2 _ It). discriminate.
Qed.

Lemma wf_run : forall cs s, wf s -> wf_impls (df_impls (snd (run false s cs))).
Proof.
  induction cs as [|c cs IH]; intros s W; [apply W|]. cbn [run]. destruct (process false s c) as [r s1] eqn:E.
  specialize (IH s1 (wf_process _ _ _ _ W E)). destruct (run false s1 cs). exact IH.
Qed.
