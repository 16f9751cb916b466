From Coq Require Import List Bool Arith Permutation.
From Verif Require Import Model.Infer Spec.InferSpec.
Import ListNotations.

Section trial.
Variables (T C : Type) (eqb : T -> T -> bool) (f : T -> outcome C).
Let tr := trials eqb f.

Lemma trials_some : forall types v rm c0 c, tr types v rm (Some c0) = Chosen c <->
  c = c0 /\ forall u, In u types -> f u = Unfit \/ f u = Fails.
Proof.
  induction types as [|t r IH]; intros v rm c0 c; cbn.
  - split. intros [= ->]. split; [auto|tauto]. intros [-> _]. reflexivity.
  - destruct (f t) eqn:E; try fold (tr r (v) (rm ++ [t]) (Some c0)).
    + rewrite IH. split; intros [-> H]; split; auto. intros u [<-|I]; auto. 
    + split; [discriminate|]. intros [_ H]. destruct (H t); auto; congruence.
    + change (tr r (set_remove eqb t v) rm (Some c0) = Chosen c <-> c = c0 /\ (forall u, t = u \/ In u r -> f u = Unfit \/ f u = Fails)).
      rewrite IH. split; intros [-> H]; split; auto. intros u [<-|I]; auto.
    + split; [discriminate|]. intros [_ H]. destruct (H t); auto; congruence.
Qed.

Lemma trials_none : forall types v rm c, NoDup types -> tr types v rm None = Chosen c <-> exists t, only_fit f types t c.
Proof.
  induction types as [|t r IH]; intros v rm c ND; cbn.
  - split. destruct rm; discriminate. intros (t & [] & _).
  - inversion ND as [|? ? NI ND']; subst.
    assert (SK: (f t = Unfit \/ f t = Fails) -> ((exists t0, only_fit f r t0 c) <-> (exists t0, only_fit f (t :: r) t0 c))).
    { intros S. split; intros (u & I & Eu & R).
      - exists u. split; [cbn; auto|]. split; auto. intros w [<-|Iw] NE; auto.
      - destruct I as [<-|I]; [destruct S; congruence|]. exists u. split; auto. split; auto. intros w Iw NE. apply R; cbn; auto. }
    destruct (f t) eqn:E.
    + rewrite <- SK by auto. apply IH; auto.
    + rewrite (trials_some r v rm c0 c). split.
      * intros [-> H]. exists t. split; [cbn; auto|]. split; auto. intros u [<-|I] NE; [congruence|auto].
      * intros (u & I & Eu & R). destruct I as [<-|I].
        -- split; [congruence|]. intros w I. apply R; cbn; auto. intros ->. contradiction.
        -- exfalso. assert (NE: t <> u) by (intros ->; contradiction). destruct (R t); cbn; auto; congruence.
    + rewrite <- SK by auto. apply IH; auto.
    + split; [discriminate|]. intros (u & I & Eu & R). exfalso.
      destruct I as [<-|I]; [congruence|]. assert (NE: t <> u) by (intros ->; contradiction).
      destruct (R t); cbn; auto; congruence.
Qed.

Lemma chosen_iff : forall types c, NoDup types ->
  test_compile_types eqb f types = Chosen c <-> exists t, only_fit f types t c.
Proof. intros. apply trials_none; auto. Qed.

Lemma only_fit_perm : forall a b t c, Permutation a b -> only_fit f a t c -> only_fit f b t c.
Proof.
  intros a b t c P (I & E & R). split; [eapply Permutation_in; eauto|]. split; auto.
  intros u Iu. apply R. eapply Permutation_in; [symmetry|]; eauto.
Qed.

Lemma chosen_perm : forall a b c, NoDup a -> Permutation a b ->
  test_compile_types eqb f a = Chosen c -> test_compile_types eqb f b = Chosen c.
Proof.
  intros a b c ND P H. apply chosen_iff in H; auto. apply chosen_iff. eapply Permutation_NoDup; eauto.
  destruct H as (t & H). exists t. eapply only_fit_perm; eauto.
Qed.

(** none of the candidates compiles or is too deep *)
Lemma trials_dull : forall types v rm, (forall u, In u types -> f u = Unfit \/ f u = Fails) ->
  tr types v rm None =
  match rm ++ filter (fun t => match f t with Unfit => true | _ => false end) types with [] => NoTypes | l => Reduce l end.
Proof.
  induction types as [|t r IH]; intros v rm H; cbn.
  - rewrite app_nil_r. destruct rm; reflexivity.
  - destruct (H t) as [E|E]; [cbn; auto| |]; rewrite E; unfold tr in IH; rewrite IH by (intros; apply H; cbn; auto).
    + rewrite <- app_assoc. reflexivity.
    + reflexivity.
Qed.

Lemma none_fit : forall types, (forall u, In u types -> f u = Unfit \/ f u = Fails) ->
  test_compile_types eqb f types =
  match filter (fun t => match f t with Unfit => true | _ => false end) types with [] => NoTypes | l => Reduce l end.
Proof. intros types H. apply (trials_dull types types [] H). Qed.

(** several candidates compile *)
Lemma trials_two : forall types v rm c, (exists t, In t types /\ compiles f t) -> (forall u, In u types -> f u <> TooDeep) ->
  exists w, tr types v rm (Some c) = Ambiguous w /\
    forall t, In t types -> compiles f t -> eqb t t = true -> (forall a b, eqb a b = true -> a = b) -> In t v -> In t w.
Proof.
  induction types as [|t r IH]; intros v rm c (u & I & (cu & Eu)) D; [destruct I|]. cbn.
  destruct (f t) eqn:E.
  - destruct I as [<-|I]; [congruence|].
    destruct (IH v (rm ++ [t]) c) as (w & E1 & K). { exists u. split; auto. exists cu. auto. } { intros; apply D; cbn; auto. }
    exists w. split; [exact E1|]. intros x [<-|Ix] (cx & Ex) RX SE Iv; [congruence|]. apply K; auto. exists cx. auto.
  - exists v. split; auto.
  - destruct I as [<-|I]; [congruence|].
    destruct (IH (set_remove eqb t v) rm c) as (w & E1 & K). { exists u. split; auto. exists cu. auto. } { intros; apply D; cbn; auto. }
    exists w. split; [exact E1|]. intros x [<-|Ix] (cx & Ex) RX SE Iv; [congruence|]. apply K; auto. exists cx. auto.
    unfold set_remove. apply filter_In. split; auto. destruct (eqb t x) eqn:Q; auto. apply SE in Q. congruence.
  - exfalso. apply (D t); cbn; auto.
Qed.

Lemma trials_several : forall types v rm, NoDup types ->
  (exists t u, t <> u /\ In t types /\ In u types /\ compiles f t /\ compiles f u) ->
  (forall u, In u types -> f u <> TooDeep) -> (forall a b, eqb a b = true <-> a = b) ->
  exists w, tr types v rm None = Ambiguous w /\ forall t, In t types -> compiles f t -> In t v -> In t w.
Proof.
  induction types as [|x r IH]; intros v rm ND (t & u & NE & It & Iu & Ct & Cu) D EQ; [destruct It|].
  inversion ND as [|? ? NI ND']; subst.
  assert (REST: ~ compiles f x -> exists t u, t <> u /\ In t r /\ In u r /\ compiles f t /\ compiles f u).
  { intros NC. exists t, u. destruct It as [<-|It]; [contradiction|]. destruct Iu as [<-|Iu]; [contradiction|]. auto. }
  cbn. destruct (f x) eqn:E.
  - destruct (IH v (rm ++ [x])) as (w & E1 & K); auto. apply REST. intros (? & ?); congruence. intros; apply D; cbn; auto.
    exists w. split; [exact E1|]. intros y [<-|Iy] (cy & Ey) Iv; [congruence|]. apply K; auto. exists cy; auto.
  - destruct (trials_two r v rm c) as (w & E1 & K).
    { destruct It as [<-|It]; destruct Iu as [<-|Iu]; try congruence; eauto. } { intros; apply D; cbn; auto. }
    exists w. split; [exact E1|]. intros y [<-|Iy] Cy Iv.
    2:{ apply K; auto. apply EQ; auto. intros; apply EQ; auto. }
    (* x itself: it is in v and is not removed later, as it is not in r *)
    clear - E1 NI Iv EQ. revert v rm E1 Iv. induction r as [|z r IH]; intros v rm E1 Iv; cbn in E1; [discriminate|].
    destruct (f z); try discriminate.
    + eapply IH; eauto. intros I. apply NI. cbn; auto.
    + inversion E1; subst; auto.
    + eapply IH; eauto. intros I. apply NI. cbn; auto. unfold set_remove. apply filter_In. split; auto.
      destruct (eqb z x) eqn:Q; auto. apply EQ in Q. exfalso. apply NI. cbn. auto.
  - destruct (IH (set_remove eqb x v) rm) as (w & E1 & K); auto. apply REST. intros (? & ?); congruence. intros; apply D; cbn; auto.
    exists w. split; [exact E1|]. intros y [<-|Iy] (cy & Ey) Iv; [congruence|]. apply K; auto. exists cy; auto.
    unfold set_remove. apply filter_In. split; auto. destruct (eqb x y) eqn:Q; auto. apply EQ in Q. congruence.
  - exfalso. apply (D x); cbn; auto.
Qed.

Lemma several_fit : forall types, NoDup types ->
  (exists t u, t <> u /\ In t types /\ In u types /\ compiles f t /\ compiles f u) ->
  (forall u, In u types -> f u <> TooDeep) -> (forall a b, eqb a b = true <-> a = b) ->
  exists w, test_compile_types eqb f types = Ambiguous w /\ forall t, In t types -> compiles f t -> In t w.
Proof.
  intros types ND S D EQ. destruct (trials_several types types [] ND S D EQ) as (w & E & K).
  exists w. split; auto.
Qed.

(** a depth error *)
Lemma trials_deep : forall types v rm o, (exists t, In t types /\ f t = TooDeep) ->
  tr types v rm o = DepthLimit \/ exists w, tr types v rm o = Ambiguous w.
Proof.
  induction types as [|x r IH]; intros v rm o (t & I & E); [destruct I|]. cbn. destruct (f x) eqn:Ex.
  - destruct I as [<-|I]; [congruence|]. apply IH. eauto.
  - destruct o; [right; eauto|]. destruct I as [<-|I]; [congruence|]. apply IH. eauto.
  - destruct I as [<-|I]; [congruence|]. apply IH. eauto.
  - auto.
Qed.

Lemma some_deep : forall types, (exists t, In t types /\ f t = TooDeep) ->
  test_compile_types eqb f types = DepthLimit \/ exists w, test_compile_types eqb f types = Ambiguous w.
Proof.
  intros types H. exact (trials_deep types types [] None H).
Qed.
End trial.

Lemma trial_struck : forall T (f : T -> report) set t,
  In t (trial_inferred_types f set) <->
  In t set /\ compiled (f t) = false /\ infer_output (f t) = false /\ lg_chg_req (f t) = false.
Proof.
  intros. unfold trial_inferred_types. rewrite filter_In, !andb_true_iff, !negb_true_iff. tauto.
Qed.

Section rounds.
Variables (N T C : Type) (g : N -> verdict T C).

Lemma round_adopted : forall nodes err rm c, round_loop g nodes err rm = Adopted c ->
  exists l n r, nodes = l ++ n :: r /\ g n = Chosen c /\ forall m, In m l -> (forall c', g m <> Chosen c') /\ g m <> DepthLimit.
Proof.
  induction nodes as [|n r IH]; intros err rm c; cbn.
  - destruct rm, err as [[? ?]|]; discriminate.
  - destruct (g n) eqn:E; intros H; try discriminate.
    + inversion H; subst. exists [], n, r. split; [reflexivity|]. split; [auto|]. intros m [].
    + apply IH in H. destruct H as (l & m & q & -> & H1 & H2). exists (n :: l), m, q. split; [reflexivity|]. split; [exact H1|].
      intros k [<-|I]; [|auto]. rewrite E. split; discriminate.
    + apply IH in H. destruct H as (l & m & q & -> & H1 & H2). exists (n :: l), m, q. split; [reflexivity|]. split; [exact H1|].
      intros k [<-|I]; [|auto]. rewrite E. split; discriminate.
    + apply IH in H. destruct H as (l & m & q & -> & H1 & H2). exists (n :: l), m, q. split; [reflexivity|]. split; [exact H1|].
      intros k [<-|I]; [|auto]. rewrite E. split; discriminate.
Qed.

Definition rms (n : N) : list (N * T) := match g n with Reduce ts => map (pair n) ts | _ => [] end.

Lemma round_calm : forall nodes err rm, (forall n, In n nodes -> (forall c, g n <> Chosen c) /\ g n <> DepthLimit) ->
  round_loop g nodes err rm =
  match rm ++ concat (map rms nodes), fold_left (fun e n => match g n with Reduce _ => e | v => Some (n, v) end) nodes err with
  | (_ :: _) as l, _ => Removals l
  | [], Some (n, v) => Failed n v
  | [], None => Nothing
  end.
Proof.
  induction nodes as [|n r IH]; intros err rm H; cbn.
  - rewrite app_nil_r. destruct rm, err as [[? ?]|]; reflexivity.
  - destruct (H n) as [H1 H2]; [cbn; auto|]. unfold rms at 1.
    destruct (g n) eqn:E; cbn.
    1: exfalso; eapply H1; reflexivity.
    3: exfalso; apply H2; reflexivity.
    all: rewrite IH by (intros; apply H; cbn; auto).
    1, 2: reflexivity.
    rewrite <- app_assoc. reflexivity.
Qed.
End rounds.
