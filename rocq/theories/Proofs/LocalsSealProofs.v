(** Final answers stay; scopes are closed. *)
From Coq Require Import String List Bool Arith Lia NArith ZArith Permutation Sorting.Sorted.
From Verif Require Import Model.Base Model.Value Model.Ast Model.Registry Model.AstGraph Model.Locals
  Spec.AstGraphSpec Spec.LocalsSpec.
From Verif Require Import Proofs.RegistryProofs Proofs.AstFlatProofs Proofs.AstExpandProofs Proofs.AstTypedProofs Proofs.LocalsGraphProofs Proofs.LocalsBuildProofs Proofs.LocalsProofs Proofs.LocalsRunProofs.
Import ListNotations.
Set Implicit Arguments.

Section F.
Variable g : graph.
Hypothesis G : good g.
Variable order : lmap -> lmap.
Hypothesis ORD : forall m, Permutation (order m) m.

Definition sedge (done : list lchg) (a b : nat) : Prop := seals g a b /\ ~ is_broken done a b.
Inductive sreach (done : list lchg) : nat -> nat -> Prop :=
| sr_refl : forall n, sreach done n n
| sr_step : forall a b c, sedge done a b -> sreach done b c -> sreach done a c.
Lemma sreach_snoc : forall done a b c, sreach done a b -> sedge done b c -> sreach done a c.
Proof. intros done a b c H. induction H; intros S; [eapply sr_step; [exact S|constructor]|]. eapply sr_step; eauto. Qed.
Definition all_flagged (done : list lchg) (n : nat) : Prop := forall m, sreach done n m -> flagged g done m.

Lemma seals_bound : forall a b, seals g a b -> a < sz g.
Proof. intros a b [H|(_ & o & H & _)]; now apply (cb_lt G) in H. Qed.

Lemma check_level_ok : forall bs done lg, state g bs done lg -> forall q, (forall a, In a q -> a < sz g) ->
  exists b, check_level lg q = Ok b /\ (b = true <-> forall a, In a q -> flagged g done a).
Proof.
  intros bs done lg S. induction q as [|n q IH]; intros L; cbn [check_level].
  - exists true. split; [reflexivity|]. split; [intros _ a []|auto].
  - destruct IH as (b & E & H); [intros; apply L; now right|]. assert (Ln : n < sz g) by (apply L; now left).
    destruct (nth_error (lg_nodes lg) n) as [v|] eqn:V; [|apply nth_error_None in V; rewrite (b_size (proj1 (s_settled S))) in V; lia].
    pose proof (s_seals S Ln) as Z. rewrite (map_nth_error _ _ _ V) in Z. destruct (va_sealed v).
    + exists b. split; [exact E|]. rewrite H. split.
      * intros K a [<-|I]; [now apply Z|auto].
      * intros K a I. apply K. now right.
    + exists false. split; [reflexivity|]. split; [discriminate|]. intros K. assert (X : Some false = Some true) by (apply Z, K; now left). discriminate.
Qed.
Lemma sealed_loop_ok : forall bs done lg, state g bs done lg -> forall fuel q, (forall a, In a q -> a < fuel /\ a < sz g) ->
  exists b, sealed_loop fuel lg q = Ok b /\ (b = true <-> forall a, In a q -> all_flagged done a).
Proof.
  intros bs done lg S. induction fuel as [|fuel IH]; intros q L; destruct q as [|n q]; cbn [sealed_loop].
  - exists true. split; [reflexivity|]. split; [intros _ a []|auto].
  - exfalso. destruct (L n (or_introl eq_refl)). lia.
  - exists true. split; [reflexivity|]. split; [intros _ a []|auto].
  - destruct (@check_level_ok _ _ _ S (n :: q)) as (b & E & H); [intros; now apply L|]. rewrite E. cbn [rbind].
    assert (OS : forall a b, In b (out_edges lg a false) <-> sedge done a b) by (intros; apply out_seal; [exact G|apply S]).
    destruct b.
    + destruct (IH (flat_map (fun n => out_edges lg n false) (n :: q))) as (b & E2 & H2).
      { intros a I. apply in_flat_map in I. destruct I as (c & I & J). apply OS in J. destruct J as (J & _). apply (seals_lt G) in J. destruct (L _ I). lia. }
      exists b. split; [exact E2|]. rewrite H2. split.
      * intros K a I m R. inversion R; subst; [now apply H|]. apply (K b0); [|auto]. apply in_flat_map. exists a. split; [auto|]. now apply OS.
      * intros K a I m R. apply in_flat_map in I. destruct I as (c & I & J). apply OS in J. apply (K c I). eapply sr_step; eauto.
    + exists false. split; [reflexivity|]. split; [discriminate|]. intros K. apply H. intros a I. apply (K a I). constructor.
Qed.
Lemma sealed_spec : forall bs done lg n, state g bs done lg -> n < sz g -> exists b, sealed lg n = Ok b /\ (b = true <-> all_flagged done n).
Proof.
  intros bs done lg n S L. unfold sealed. destruct (@sealed_loop_ok _ _ _ S (1 + length (lg_nodes lg)) [n]) as (b & E & H).
  { intros a [<-|[]]. rewrite (b_size (proj1 (s_settled S))). lia. }
  exists b. split; [exact E|]. rewrite H. split; [intros K; apply K; now left|]. intros K a [<-|[]]. exact K.
Qed.

(** ** What is ahead was waited for *)
Definition legal (done : list lchg) : Prop := forall c, In c done ->
  match c with
  | Seal o => exists t, node g o = Some (NOp t)
  | BreakEdge o a => (exists t, node g o = Some (NOp t)) /\ In a (children g o)
  | SealExpr n => exists c t ps, node g c = Some (NDef t ps) /\ In n (children g c)
  | _ => True
  end.

Lemma broken_dec : forall done o a, In (BreakEdge o a) done \/ ~ In (BreakEdge o a) done.
Proof.
  induction done as [|c done IH]; intros o a; [right; intros []|]. destruct (IH o a) as [H|H]; [left; now right|].
  destruct c as [x t n|x to n|n|o' a'|n]; try (right; intros [X|X]; [discriminate|contradiction]).
  destruct (Nat.eq_dec o o') as [->|N]; [|right; intros [X|X]; [congruence|contradiction]].
  destruct (Nat.eq_dec a a') as [->|N]; [|right; intros [X|X]; [congruence|contradiction]]. left. now left.
Qed.

Definition heard (done : list lchg) (n m : nat) : Prop := sreach done n m \/ (is_op g m = true /\ exists p, comes_before g p m /\ sreach done n p).
Lemma heard_ahead : forall done, legal done -> forall a x, ahead g a x -> forall n, heard done n x -> heard done n a.
Proof.
  intros done LG a x A. induction A as [x|a b c A IH CB]; intros n H; [exact H|]. apply IH. destruct H as [H|(O & p & P & R)].
  - destruct (broken_dec done b c) as [BR|BR].
    + right. pose proof (LG _ BR) as ((t & OP) & CH). split; [unfold is_op; now rewrite OP|]. destruct (@cb_op g G _ _ OP) as (p & P). exists p. split; [exact P|].
      eapply sreach_snoc; [exact H|]. split.
      * right. split; [|eauto]. destruct (cb_kind G CB) as [K|K]; [|exact K]. exfalso. destruct (@op_child g G _ _ _ OP CH) as (y & Y & T). unfold is_op in K. rewrite Y in K.
        destruct y; try discriminate. contradiction.
      * intros BR'. apply LG in BR'. destruct BR' as (_ & CH'). assert (p = b) by (eapply (child_unique G); eauto). subst p. apply (cb_lt G) in P. lia.
    + left. eapply sreach_snoc; [exact H|]. split; [now left|exact BR].
  - left. assert (p = b) by (eapply cb_fun; eauto). now subst p.
Qed.
Lemma waited : forall done n m, legal done -> ahead g m n -> heard done n m.
Proof. intros done n m LG A. eapply heard_ahead; eauto. left. constructor. Qed.

Lemma op_flagged : forall done o t, legal done -> node g o = Some (NOp t) -> flagged g done o -> In (Seal o) done.
Proof.
  intros done o t LG O [A|[->|[S|S]]].
  - apply (arg_not_op G) in A. unfold is_op in A. rewrite O in A. discriminate.
  - destruct (gd_root G) as (t' & R). congruence.
  - exact S.
  - apply LG in S. destruct S as (c & t' & ps & C & CH). destruct (@def_child g G _ _ _ _ C CH) as (t'' & E). congruence.
Qed.

Lemma bind_not_ahead : forall done d n, legal done -> may_bind g done d -> all_flagged done n -> ~ ahead g d n.
Proof.
  intros done d n LG MB AF A. pose proof (waited LG A) as H. destruct MB as [(e & t & l & a & r & E & C & NS)|[(o & t & O & C & F & NS & NB)|(c & t & ps & D & C & NS)]].
  - assert (CB : comes_before g a d) by (eapply cb_block; eauto).
    assert (AO : exists t, node g a = Some (NOp t)) by (apply (@expr_child g G e t a E); rewrite C; apply in_or_app; right; now left).
    assert (R : sreach done n a).
    { destruct H as [H|(_ & p & P & H)]; [|assert (p = a) by (eapply cb_fun; eauto); now subst p].
      eapply sreach_snoc; [exact H|]. split; [now left|]. intros BR. apply LG in BR. destruct BR as (_ & CH).
      assert (a = e) by (eapply (child_unique G); [exact CH|rewrite C; apply in_or_app; right; right; now left]). subst a. destruct AO as (t' & AO). congruence. }
    destruct AO as (t' & AO). apply NS. eapply op_flagged; eauto.
  - assert (CB : comes_before g o d) by (eapply cb_arg; eauto).
    assert (R : sreach done n o).
    { destruct H as [H|(K & p & P & H)]; [|assert (p = o) by (eapply cb_fun; eauto); now subst p].
      eapply sreach_snoc; [exact H|]. split; [now left|exact NB]. }
    apply NS. eapply op_flagged; eauto.
  - destruct (@def_child g G _ _ _ _ D C) as (t' & E). destruct H as [H|(K & _)]; [|unfold is_op in K; rewrite E in K; discriminate].
    destruct (AF d H) as [X|[->|[X|X]]].
    + apply (is_arg_spec G) in X. destruct X as (o & t'' & O & CH & _). assert (o = c) by (eapply (child_unique G); eauto). subst o. congruence.
    + apply (child_lt G) in C. lia.
    + apply LG in X. destruct X as (t'' & X). congruence.
    + contradiction.
Qed.

Lemma orderly_legal : forall cs done, legal done -> orderly g done cs -> legal (done ++ cs) /\ Forall (in_graph g) cs.
Proof.
  induction cs as [|c cs IH]; intros done LG O; cbn in O; [rewrite app_nil_r; auto|]. destruct O as (M & O).
  destruct (IH (done ++ [c])) as (L2 & F2); auto.
  - intros x I. apply in_app_or in I. destruct I as [I|[<-|[]]]; [now apply LG|]. destruct c; auto.
  - rewrite <- app_assoc in L2. split; [exact L2|]. constructor; [|exact F2].
    assert (MB : forall n, may_bind g done n -> n < sz g).
    { intros n [(e & t & l & a & r & E & C & _)|[(o & t & E & C & _)|(c' & t & ps & E & C & _)]].
      - assert (I : In n (children g e)) by (rewrite C; apply in_or_app; right; right; now left). now apply (child_lt G) in I.
      - now apply (child_lt G) in C.
      - now apply (child_lt G) in C. }
    destruct c as [x t n|x to n|n|o a|n]; cbn in *; auto.
    + destruct M as (t & M). apply nth_error_Some. unfold node in M. congruence.
    + destruct M as (c & t & ps & _ & C). now apply (child_lt G) in C.
Qed.

(** ** A final answer stays *)
Lemma all_flagged_grows : forall done c n, all_flagged done n -> all_flagged (done ++ [c]) n.
Proof.
  intros done c n H m R. assert (R' : sreach done n m).
  { clear H. induction R as [|a b m (S & NB) R IH]; [constructor|]. eapply sr_step; [|exact IH]. split; [exact S|]. intros X. apply NB. unfold is_broken. apply in_or_app. now left. }
  specialize (H m R'). unfold flagged in *. rewrite !in_app_iff. tauto.
Qed.
Lemma bound_at_snoc : forall bs m y l n x, bound_at (bs ++ [(m, y, l)]) n x = if Nat.eqb m n && str_eqb y x then Some l else bound_at bs n x.
Proof.
  induction bs as [|[[m0 y0] l0] bs IH]; intros m y l n x; cbn; [now destruct (_ && _)|]. rewrite IH. now destruct (Nat.eqb m n && str_eqb y x).
Qed.
Lemma visible_snoc : forall bs d y l x n, ~ ahead g d n -> forall d' l', visible g (bs ++ [(d, y, l)]) x n d' l' <-> visible g bs x n d' l'.
Proof.
  intros bs d y l x n NA d' l'. split; intros V.
  - revert NA. induction V as [n e H|m n d' e H CB V IH]; intros NA; rewrite bound_at_snoc in H; destruct (Nat.eqb_spec d n) as [->|NE]; try (destruct NA; constructor).
    + now constructor.
    + eapply vis_before; eauto. apply IH. intros A. apply NA. eapply ah_step; eauto.
  - revert NA. induction V as [n e H|m n d' e H CB V IH]; intros NA; (destruct (Nat.eqb_spec d n) as [->|NE]; [destruct NA; constructor|]).
    + constructor. rewrite bound_at_snoc. destruct (Nat.eqb_spec d n); [congruence|]. exact H.
    + eapply vis_before; eauto; [rewrite bound_at_snoc; destruct (Nat.eqb_spec d n); [congruence|exact H]|]. apply IH. intros A. apply NA. eapply ah_step; eauto.
Qed.

Lemma visible_step : forall vs done c lg n x, state g (history vs done) done lg -> legal done -> may g done c -> all_flagged done n ->
  forall d l, visible g (history vs (done ++ [c])) x n d l <-> visible g (history vs done) x n d l.
Proof.
  intros vs done c lg n x S LG M AF d l. rewrite (history_snoc vs done c S).
  destruct c; cbn [introduced may] in *; try (rewrite app_nil_r; tauto); apply visible_snoc; eapply bind_not_ahead; eauto.
Qed.

Lemma option_ext : forall A (a b : option A), (forall x, a = Some x <-> b = Some x) -> a = b.
Proof. intros A [a|] [b|] H; auto; [now apply H|symmetry; now apply H|now apply H]. Qed.

Lemma stable : forall vs cs2 done lg1 lg2 n x o, state g (history vs done) done lg1 -> legal done -> orderly g done cs2 -> n < sz g ->
  apply_chgs order lg1 cs2 = Ok lg2 -> get_opt lg1 n x = Ok (true, o) -> get_opt lg2 n x = Ok (true, o).
Proof.
  induction cs2 as [|c cs IH]; intros done lg1 lg2 n x o S LG O L E GO.
  - cbn in E. injection E as <-. exact GO.
  - destruct (@orderly_legal (c :: cs) done LG O) as (_ & F). inversion F; subst. cbn in O. destruct O as (M & O).
    destruct (@chg_ok g G order ORD vs done lg1 c S H1) as (b & lg' & E1 & S1). unfold apply_chgs in E. cbn [rfold] in E. rewrite E1 in E. cbn [rbind snd] in E.
    apply (IH (done ++ [c]) lg' lg2); auto.
    { intros y I. apply in_app_or in I. destruct I as [I|[<-|[]]]; [now apply LG|]. destruct c; auto. }
    unfold get_opt in *. destruct (sealed_spec S L) as (s & ES & HS). rewrite ES in GO. cbn [rbind] in GO.
    destruct (@get_spec g G _ _ n x (s_settled S) (s_locals S) L) as (o1 & EO & HO). rewrite EO in GO. cbn [rbind] in GO. destruct s; [|discriminate]. injection GO as <-.
    destruct (sealed_spec S1 L) as (s' & ES' & HS'). rewrite ES'. cbn [rbind].
    destruct (@get_spec g G _ _ n x (s_settled S1) (s_locals S1) L) as (o2 & EO2 & HO2). rewrite EO2. cbn [rbind].
    assert (AF : all_flagged done n) by now apply HS.
    assert (s' = true) as -> by (apply HS', all_flagged_grows, AF). f_equal. f_equal. apply option_ext. intros l. rewrite HO, HO2.
    split; intros (d & V); exists d; eapply visible_step; eauto.
Qed.

(** ** Scopes *)
Lemma visible_ahead : forall bs x n d l, visible g bs x n d l -> ahead g d n /\ bound_at bs d x = Some l.
Proof. intros bs x n d l V. induction V as [n l H|m n d l H CB V (A & B)]; [split; [constructor|auto]|]. split; [eapply ah_step; eauto|auto]. Qed.
Lemma visible_closest : forall bs x n d l, visible g bs x n d l -> forall m, ahead g d m -> ahead g m n -> m <> d -> bound_at bs m x = None.
Proof.
  intros bs x n d l V. induction V as [n l H|m n d l H CB V IH]; intros k A B N.
  - exfalso. apply (ahead_le G) in A. apply (ahead_le G) in B. lia.
  - inversion B as [|? m' ? B1 B2]; subst; [exact H|]. assert (m' = m) by (eapply cb_fun; eauto). subst. auto.
Qed.
Lemma inside_inv : forall a n, inside g a n -> n = a \/ exists m, parents g n = [m] /\ inside g a m.
Proof. intros a n H. inversion H; subst; eauto. Qed.
Lemma inside_child : forall a m n, inside g a m -> In n (children g m) -> inside g a n.
Proof. intros a m n H C. eapply in_below; [exact H|]. now apply (parent_child G). Qed.
Lemma inside_parent : forall a m n, inside g a n -> In n (children g m) -> n <> a -> inside g a m.
Proof.
  intros a m n H C NE. apply inside_inv in H. destruct H as [->|(m' & P & H)]; [congruence|]. rewrite (parent_child G _ _ C) in P. injection P as <-. exact H.
Qed.
Lemma arg_closed : forall a, is_arg g a = true -> forall d n, ahead g d n -> inside g a d -> inside g a n.
Proof.
  intros a A d n H I. induction H as [n|d b c H IH CB]; [auto|]. specialize (IH I). clear H I. apply cb_inv in CB.
  destruct CB as [(e & t & l & r & E & C)|[(t & r & E & C)|(t & E & C & F)]].
  - assert (Cb : In b (children g e)) by (rewrite C; apply in_or_app; right; now left). assert (Cc : In c (children g e)) by (rewrite C; apply in_or_app; right; right; now left).
    apply (inside_child (m := e)); [|exact Cc]. eapply inside_parent; eauto. intros ->. destruct (@expr_child g G _ _ _ E Cb) as (t' & X).
    apply (arg_not_op G) in A. unfold is_op in A. rewrite X in A. discriminate.
  - eapply inside_child; eauto. rewrite C. now left.
  - eapply inside_child; eauto.
Qed.
Lemma body_closed : forall c t ps e, node g c = Some (NDef t ps) -> In e (children g c) -> forall d n, ahead g d n -> inside g e n -> inside g e d.
Proof.
  intros c t ps e D CE d n H I. induction H as [n|d b m H IH CB]; [auto|]. apply IH. clear H IH. apply cb_inv in CB.
  destruct (@def_child g G _ _ _ _ D CE) as (te & EE).
  destruct CB as [(e' & t' & l & r & E & C)|[(t' & r & E & C)|(t' & E & C & F)]].
  - assert (Cb : In b (children g e')) by (rewrite C; apply in_or_app; right; now left). assert (Cm : In m (children g e')) by (rewrite C; apply in_or_app; right; right; now left).
    apply (inside_child (m := e')); [|exact Cb]. eapply inside_parent; eauto. intros ->. destruct (@expr_child g G _ _ _ E Cm) as (t'' & X). congruence.
  - eapply inside_parent; eauto; [rewrite C; now left|]. intros ->. assert (CC : In e (children g b)) by (rewrite C; now left).
    assert (b = c) by (eapply (child_unique G); eauto). subst. congruence.
  - eapply inside_parent; eauto. intros ->. assert (b = c) by (eapply (child_unique G); eauto). subst. congruence.
Qed.

(** ** Slots *)
Lemma bound_in : forall bs n x l, bound_at bs n x = Some l -> In (n, x, l) bs.
Proof.
  induction bs as [|[[m y] e] bs IH]; intros n x l H; cbn in H; [discriminate|]. destruct (bound_at bs n x) as [e'|] eqn:B.
  - injection H as ->. right. auto.
  - destruct (Nat.eqb_spec m n) as [->|]; [|discriminate]. destruct (str_eqb_spec y x) as [->|]; [|discriminate]. injection H as ->. now left.
Qed.
Lemma slot_in : forall bs n x t s, In (n, x, EVar t s) bs -> In s (var_slots bs).
Proof. induction bs as [|[[m y] [t' s'|p]] bs IH]; intros n x t s H; cbn in *; [tauto| |]; destruct H as [H|H]; try (injection H as <- <- <- <-); auto; [right; eauto|discriminate|eauto]. Qed.
Lemma slot_unique : forall bs n x t s n' x' t', NoDup (var_slots bs) -> In (n, x, EVar t s) bs -> In (n', x', EVar t' s) bs -> n = n' /\ x = x' /\ t = t'.
Proof.
  induction bs as [|[[m y] [t0 s0|p]] bs IH]; intros n x t s n' x' t' N H H'; cbn in *; [tauto| |].
  - inversion N; subst. destruct H as [H|H], H' as [H'|H'].
    + injection H as <- <- <- <-. injection H' as <- <- <-. auto.
    + injection H as <- <- <- <-. apply slot_in in H'. contradiction.
    + injection H' as <- <- <- <-. apply slot_in in H. contradiction.
    + eauto.
  - destruct H as [H|H], H' as [H'|H']; try discriminate. eauto.
Qed.
End F.
