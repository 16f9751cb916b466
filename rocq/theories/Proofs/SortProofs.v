From Coq Require Import List Permutation Sorted Bool Arith Lia NArith ZArith.
From Verif Require Import Spec.OpsSpec Model.Base Model.Value Model.TableCrate Model.RowPar Model.TableOps
  Spec.TableSpec Spec.ParSpec Spec.SortSpec Proofs.ListLemmas Proofs.TableBasics Proofs.RowParProofs.
Import ListNotations.
Set Implicit Arguments.

(** ** Orders *)

Lemma total_preorder_sub : forall A (P Q : A -> Prop) cmp,
  (forall a, Q a -> P a) -> total_preorder_on P cmp -> total_preorder_on Q cmp.
Proof. intros A P Q cmp H (R & S & T). repeat split; eauto. Qed.

Lemma total_preorder_all : forall A (P : A -> Prop) cmp, total_preorder cmp -> total_preorder_on P cmp.
Proof. intros A P cmp H. apply (@total_preorder_sub A (fun _ => True) P cmp); auto. Qed.

Lemma total_preorder_map : forall A B (f : B -> A) cmp,
  total_preorder cmp -> total_preorder (fun a b => cmp (f a) (f b)).
Proof. intros A B f cmp (R & S & T). repeat split; intros; eauto. Qed.

Lemma cmp_eq_trans_l : forall A (P : A -> Prop) cmp, total_preorder_on P cmp ->
  forall a b c, P a -> P b -> P c -> cmp a b = Eq -> cmp a c = cmp b c.
Proof.
  intros A P cmp (R & S & T) a b c Pa Pb Pc E.
  assert (cmp b a = Eq) as E' by (rewrite S, E; auto).
  destruct (cmp a c) eqn:E1, (cmp b c) eqn:E2; auto.
  - assert (cmp c a = Eq) by (rewrite S, E1; auto).
    assert (cmp c b <> Gt) as K by (apply (T c a b); congruence).
    assert (cmp c b = Gt) by (rewrite S, E2; auto). congruence.
  - assert (cmp b c <> Gt) as K by (apply (T b a c); congruence). congruence.
  - assert (cmp c b = Eq) by (rewrite S, E2; auto).
    assert (cmp c a <> Gt) as K by (apply (T c b a); congruence).
    assert (cmp c a = Gt) by (rewrite S, E1; auto). congruence.
  - assert (cmp b c <> Gt) as K by (apply (T b a c); congruence). congruence.
  - assert (cmp a c <> Gt) as K by (apply (T a b c); congruence). congruence.
  - assert (cmp a c <> Gt) as K by (apply (T a b c); congruence). congruence.
Qed.

Lemma str_cmp_refl : forall a, str_cmp a a = Eq.
Proof. induction a; cbn; auto. now rewrite N.compare_refl. Qed.

Lemma str_cmp_eq : forall a b, str_cmp a b = Eq <-> a = b.
Proof.
  induction a as [|x a IH]; intros [|y b]; cbn; split; intros H; try congruence.
  - destruct (N.compare_spec x y); try discriminate. subst. f_equal. now apply IH.
  - injection H as -> ->. rewrite N.compare_refl. now apply IH.
Qed.

Lemma str_cmp_antisym : forall a b, str_cmp b a = CompOpp (str_cmp a b).
Proof.
  induction a as [|x a IH]; intros [|y b]; cbn; auto.
  rewrite N.compare_antisym. destruct (N.compare x y); cbn; auto.
Qed.

Lemma str_cmp_trans : forall a b c, str_cmp a b <> Gt -> str_cmp b c <> Gt -> str_cmp a c <> Gt.
Proof.
  induction a as [|x a IH]; intros [|y b] [|z c]; cbn; try congruence.
  destruct (N.compare_spec x y), (N.compare_spec y z), (N.compare_spec x z);
    subst; try congruence; try lia; eauto.
Qed.

Lemma str_cmp_total : total_preorder str_cmp.
Proof.
  repeat split; intros.
  - apply str_cmp_refl.
  - apply str_cmp_antisym.
  - eapply str_cmp_trans; eauto.
Qed.

Lemma Z_compare_total : total_preorder Z.compare.
Proof.
  repeat split; intros.
  - apply Z.compare_refl.
  - apply Z.compare_antisym.
  - rewrite Z.compare_le_iff in *. lia.
Qed.

Lemma bool_cmp_total : total_preorder Bool.compare.
Proof.
  repeat split.
  - intros []; auto.
  - intros [] []; auto.
  - intros [] [] []; cbn; congruence.
Qed.



Lemma pair_cmp_total : forall A B (c : A -> A -> comparison) (d : B -> B -> comparison),
  total_preorder c -> total_preorder d -> total_preorder (pair_cmp c d).
Proof.
  intros A B c d Hc Hd.
  pose proof Hc as (R1 & S1 & T1). pose proof Hd as (R2 & S2 & T2).
  unfold pair_cmp. repeat split.
  - intros a _. rewrite R1; auto.
  - intros a b _ _. rewrite S1; auto. destruct (c (fst a) (fst b)); cbn; auto.
  - intros [x x'] [y y'] [z z'] _ _ _; cbn.
    destruct (c x y) eqn:E; try congruence.
    + rewrite (@cmp_eq_trans_l _ _ _ Hc x y z I I I E). destruct (c y z); try congruence. eauto.
    + destruct (c y z) eqn:E2; try congruence; intros _ _.
      * assert (c x z = Lt) as ->; [|congruence].
        assert (c z y = Eq) as E3 by (rewrite S1, E2; auto).
        pose proof (@cmp_eq_trans_l _ _ _ Hc z y x I I I E3) as E4.
        rewrite S1 in E4 by auto. rewrite (S1 x y) in E4 by auto. rewrite E in E4.
        destruct (c x z); cbn in *; congruence.
      * assert (c x z <> Gt) as K by (apply (T1 x y z); auto; congruence).
        destruct (c x z) eqn:E5; try congruence.
        exfalso. assert (c z x = Eq) as E6 by (rewrite S1, E5; auto).
        pose proof (@cmp_eq_trans_l _ _ _ Hc z x y I I I E6) as E7.
        rewrite E in E7. rewrite S1, E2 in E7 by auto. discriminate.
Qed.

Lemma Nat_compare_total : total_preorder Nat.compare.
Proof.
  repeat split; intros.
  - apply Nat.compare_refl.
  - apply Nat.compare_antisym.
  - rewrite Nat.compare_le_iff in *. lia.
Qed.


Lemma cmp_table_entries_key : forall a b, cmp_table_entries a b = key_cmp (sort_key a) (sort_key b).
Proof.
  intros a b. unfold cmp_table_entries, key_cmp, pair_cmp.
  destruct a as [|x|[]], b as [|y|[]]; cbn; auto;
    try (now rewrite Z.compare_refl); try now destruct (Z.compare _ _).
  now destruct b0, b.
Qed.

Lemma key_cmp_total : total_preorder key_cmp.
Proof.
  unfold key_cmp. apply pair_cmp_total; [apply Nat_compare_total|].
  apply pair_cmp_total; [apply bool_cmp_total|].
  apply pair_cmp_total; [apply Z_compare_total|apply str_cmp_total].
Qed.

Lemma cmp_table_entries_total : total_preorder cmp_table_entries.
Proof.
  destruct (total_preorder_map sort_key key_cmp_total) as (R & S & T).
  repeat split; intros; rewrite ?cmp_table_entries_key in *; eauto.
Qed.

(** ** Stable sorts *)

Lemma StronglySorted_in_tail : forall A (R : A -> A -> Prop) a l, StronglySorted R (a :: l) ->
  forall b, In b l -> R a b.
Proof. intros A R a l H b Hb. inversion H; subst. rewrite Forall_forall in H3. auto. Qed.

Lemma filter_filter_and : forall A (p q : A -> bool) l,
  filter p (filter q l) = filter (fun x => q x && p x) l.
Proof.
  induction l as [|a l IH]; cbn; auto.
  destruct (q a); cbn; [destruct (p a)|]; rewrite ?IH; auto.
Qed.

Lemma filter_comm' : forall A (p q : A -> bool) l, filter p (filter q l) = filter q (filter p l).
Proof. intros. rewrite !filter_filter_and. apply filter_ext. intros; apply andb_comm. Qed.

Lemma lex_eqv : forall A (c d : A -> A -> comparison) x y,
  eqv (fun a b => match c a b with Eq => d a b | r => r end) x y = eqv c x y && eqv d x y.
Proof. intros. unfold eqv. destruct (c x y); reflexivity. Qed.

Lemma sorted_refine : forall A (c d : A -> A -> comparison) l,
  StronglySorted (fun a b => c a b <> Gt) l ->
  (forall x, In x l -> c x x = Eq) ->
  (forall x, In x l -> StronglySorted (fun a b => d a b <> Gt) (filter (eqv c x) l)) ->
  StronglySorted (fun a b => match c a b with Eq => d a b | r => r end <> Gt) l.
Proof.
  induction l as [|a l IH]; intros HS HR HF; [constructor|].
  inversion HS as [|? ? HS' HFa]; subst. constructor.
  - apply IH; auto.
    + intros; apply HR; cbn; auto.
    + intros x Hx. specialize (HF x (or_intror Hx)). cbn in HF.
      destruct (eqv c x a); [inversion HF; auto|auto].
  - rewrite Forall_forall in *. intros b Hb. pose proof (HFa b Hb) as Hab.
    destruct (c a b) eqn:E; try congruence.
    specialize (HF a (or_introl eq_refl)). cbn in HF.
    assert (eqv c a a = true) as E1 by (unfold eqv; now rewrite (HR a (or_introl eq_refl))).
    rewrite E1 in HF. eapply StronglySorted_in_tail in HF.
    2:{ apply filter_In. split; [exact Hb|]. unfold eqv. now rewrite E. }
    exact HF.
Qed.

Lemma StronglySorted_filter : forall A (R : A -> A -> Prop) p l,
  StronglySorted R l -> StronglySorted R (filter p l).
Proof.
  induction 1; cbn; [constructor|]. destruct (p a); auto.
  constructor; auto. rewrite Forall_forall in *. intros x Hx. apply filter_In in Hx. apply H0; tauto.
Qed.

(** Sorting by [d] and then, stably, by [c] sorts by [c] first and [d] second. *)
Lemma stable_sort_compose : forall A (c d : A -> A -> comparison) l m n,
  total_preorder c ->
  is_stable_sort d l m -> is_stable_sort c m n ->
  is_stable_sort (fun a b => match c a b with Eq => d a b | r => r end) l n.
Proof.
  intros A c d l m n Hc (P1 & S1 & F1) (P2 & S2 & F2).
  pose proof Hc as (R & _ & _).
  split; [etransitivity; eauto|]. split.
  - apply sorted_refine; auto.
    intros x Hx. rewrite F2.
    + now apply StronglySorted_filter.
    + eapply Permutation_in; [symmetry; exact P2|exact Hx].
  - intros x Hx.
    assert (forall k, filter (eqv (fun a b => match c a b with Eq => d a b | r => r end) x) k =
              filter (eqv d x) (filter (eqv c x) k)) as G.
    { intros k. rewrite filter_filter_and. apply filter_ext. intros y. apply lex_eqv. }
    rewrite !G. rewrite F2 by (eapply Permutation_in; eauto).
    rewrite filter_comm'. rewrite F1 by auto. apply filter_comm'.
Qed.

Lemma is_stable_sort_ext : forall A (c d : A -> A -> comparison) l m,
  (forall a b, c a b = d a b) -> is_stable_sort c l m -> is_stable_sort d l m.
Proof.
  intros A c d l m E (P & S & F). split; auto. split.
  - clear -E S. induction S; constructor; auto.
    eapply Forall_impl; [|exact H]. intros x Hx. now rewrite <- E.
  - intros x Hx. specialize (F x Hx).
    assert (forall y, eqv d x y = eqv c x y) as G by (intros; unfold eqv; now rewrite E).
    rewrite (filter_ext _ _ G m), (filter_ext _ _ G l). exact F.
Qed.

Lemma lex_cmp_total : forall A (cs : list (A -> A -> comparison)),
  (forall c, In c cs -> total_preorder c) -> total_preorder (lex_cmp cs).
Proof.
  induction cs as [|c cs IH]; intros H.
  - repeat split; cbn; auto; congruence.
  - assert (total_preorder (fun a b => pair_cmp c (lex_cmp cs) (a, a) (b, b))) as G.
    { apply (total_preorder_map (fun a : A => (a, a))). apply pair_cmp_total; [apply H; cbn; auto|].
      apply IH. intros; apply H; cbn; auto. }
    exact G.
Qed.

(** Comparison of rows on one column. *)
Definition col_cmp (j : nat) (a b : row) : comparison :=
  cmp_table_entries (nth j a ENil) (nth j b ENil).

Lemma col_cmp_total : forall j, total_preorder (col_cmp j).
Proof. intros j. apply (total_preorder_map (fun r : row => nth j r ENil)). apply cmp_table_entries_total. Qed.

Lemma lex_cmp_snoc_rev : forall A (cs : list (A -> A -> comparison)) c a b,
  lex_cmp (rev (cs ++ [c])) a b = match c a b with Eq => lex_cmp (rev cs) a b | r => r end.
Proof. intros. rewrite rev_app_distr. reflexivity. Qed.

Lemma sort_cols_fold : forall so, sort_contract so -> forall cols (h : row) d,
  exists d', fold_left (fun t c => table_sort so cmp_table_entries c t) cols (h :: d) = h :: d' /\
             is_stable_sort (lex_cmp (rev (map col_cmp cols))) d d'.
Proof.
  intros so HS cols h d.
  induction cols as [|c cols IH] using rev_ind.
  - exists d. split; [reflexivity|]. cbn. split; [auto|]. split; [|auto].
    clear. induction d; constructor; auto. apply Forall_forall. intros; congruence.
  - destruct IH as (d1 & E & HSt).
    rewrite fold_left_app, E. cbn [fold_left table_sort].
    destruct (HS row (col_cmp c) d1) as (_ & HT & _).
    exists (fst (so row (col_cmp c) d1)). split; [reflexivity|].
    rewrite map_app. cbn [map].
    eapply is_stable_sort_ext; [intros a b; symmetry; apply lex_cmp_snoc_rev|].
    eapply stable_sort_compose; [apply col_cmp_total|exact HSt|].
    apply HT. apply total_preorder_all. apply col_cmp_total.
Qed.

Theorem sort_table_correct : forall so, sort_contract so -> forall names (t : table),
  match sort_table so names t with
  | Ok t' => exists cols, resolve_indices names t = Ok cols /\
       header t' = header t /\
       is_stable_sort (lex_cmp (rev (map col_cmp cols))) (data t) (data t')
  | Err e => exists n, In n names /\ col_idx t n = Err e
  | Panic => False
  end.
Proof.
  intros so HS names t. unfold sort_table.
  destruct (resolve_indices names t) as [cols|e|] eqn:E; cbn.
  - exists cols. split; auto. destruct t as [|h d].
    + assert (forall cols, fold_left (fun t c => table_sort so cmp_table_entries c t) cols [] = []) as ->.
      { induction cols0; cbn; auto. }
      cbn. split; auto. split; auto. split; [constructor|easy].
    + destruct (sort_cols_fold HS cols h d) as (d' & -> & H). cbn. auto.
  - revert E. unfold resolve_indices. clear. induction names as [|n names IH]; cbn; [discriminate|].
    destruct (col_idx t n) eqn:En; cbn; try discriminate.
    + destruct (rmapM (col_idx t) names); cbn; try discriminate.
      intros [= ->]. destruct IH as (m & Hm & Em); auto. exists m; auto.
    + intros [= ->]. exists n; auto.
  - revert E. unfold resolve_indices. clear. induction names as [|n names IH]; cbn; [discriminate|].
    destruct (col_idx t n) eqn:En; cbn; try discriminate.
    + destruct (rmapM (col_idx t) names); cbn; try discriminate. auto.
    + unfold col_idx in En. destruct t; [discriminate|]. destruct (hdr_position n l); discriminate.
Qed.

(** A stable sort is unique, so the contract determines the result. *)
Lemma stable_sort_unique : forall A (cmp : A -> A -> comparison) l m n,
  total_preorder_on (fun x => In x l) cmp ->
  is_stable_sort cmp l m -> is_stable_sort cmp l n -> m = n.
Proof.
  intros A cmp l m n HT (P1 & S1 & F1) (P2 & S2 & F2).
  assert (PP : Permutation m n) by (etransitivity; [symmetry; exact P1|exact P2]).
  assert (HF : forall x, In x m -> filter (eqv cmp x) m = filter (eqv cmp x) n).
  { intros x Hx. assert (In x l) by (eapply Permutation_in; [symmetry; exact P1|exact Hx]).
    rewrite F1, F2; auto. }
  assert (HT' : total_preorder_on (fun x => In x m) cmp).
  { eapply total_preorder_sub; [|exact HT]. intros a Ha. eapply Permutation_in; [symmetry; exact P1|exact Ha]. }
  clear P1 F1 P2 F2 HT l. revert n PP S2 HF.
  induction m as [|a m IH]; intros n PP S2 HF.
  - apply Permutation_nil in PP. auto.
  - destruct n as [|b n]; [symmetry in PP; apply Permutation_nil in PP; discriminate|].
    destruct HT' as (R & Sy & T).
    assert (Hb : In b (a :: m)) by (eapply Permutation_in; [symmetry; exact PP|cbn; auto]).
    assert (Ha : In a (b :: n)) by (eapply Permutation_in; [exact PP|cbn; auto]).
    assert (cmp a b <> Gt) as L1.
    { destruct Hb as [->|Hb]; [rewrite R; cbn; auto; congruence|].
      apply (StronglySorted_in_tail S1 b Hb). }
    assert (cmp b a <> Gt) as L2.
    { destruct Ha as [->|Ha]; [rewrite R; cbn; auto; congruence|].
      apply (StronglySorted_in_tail S2 a Ha). }
    assert (cmp a b = Eq) as E.
    { rewrite Sy in L2; auto; [|cbn; auto]. destruct (cmp a b); cbn in *; congruence. }
    assert (a = b) as ->.
    { pose proof (HF a (or_introl eq_refl)) as F. cbn in F.
      assert (eqv cmp a a = true) as E1 by (unfold eqv; rewrite R; cbn; auto).
      assert (eqv cmp a b = true) as E2 by (unfold eqv; rewrite E; auto).
      rewrite E1, E2 in F. injection F as F _. exact F. }
    f_equal. apply IH.
    + inversion S1; auto.
    + repeat split; intros.
      * apply R; cbn; auto.
      * apply Sy; cbn; auto.
      * apply (T a b0 c); cbn; auto.
    + eapply Permutation_cons_inv; eauto.
    + inversion S2; auto.
    + intros x Hx. specialize (HF x (or_intror Hx)). cbn in HF.
      destruct (eqv cmp x b); [injection HF as HF; exact HF|exact HF].
Qed.

(** ** An instance of the contract: insertion sort with the comparisons it makes. *)

Fixpoint ins {A} (cmp : A -> A -> comparison) (x : A) (l : list A) : list A * list (A * A) :=
  match l with
  | [] => ([x], [])
  | y :: l' =>
      match cmp x y with
      | Gt => let (r, m) := ins cmp x l' in (y :: r, (x, y) :: m)
      | _ => (x :: l, [(x, y)])
      end
  end.
Fixpoint isort_ {A} (cmp : A -> A -> comparison) (l : list A) : list A * list (A * A) :=
  match l with
  | [] => ([], [])
  | x :: l => let (s, m) := isort_ cmp l in let (s', m') := ins cmp x s in (s', m ++ m')
  end.
Definition isort : sorter := fun A cmp l => isort_ cmp l.

Lemma ins_perm : forall A cmp (x : A) l, Permutation (x :: l) (fst (ins cmp x l)).
Proof.
  induction l as [|y l IH]; cbn; auto.
  destruct (cmp x y); cbn; auto.
  destruct (ins cmp x l) as [r m]; cbn in *.
  etransitivity; [apply perm_swap|]. constructor. exact IH.
Qed.

Lemma isort_perm : forall A cmp (l : list A), Permutation l (fst (isort_ cmp l)).
Proof.
  induction l as [|x l IH]; cbn; auto.
  destruct (isort_ cmp l) as [s m]. pose proof (ins_perm cmp x s).
  destruct (ins cmp x s) as [s' m']. cbn in *. etransitivity; [constructor; exact IH|exact H].
Qed.

Lemma ins_made : forall A cmp (x : A) l a b, In (a, b) (snd (ins cmp x l)) -> a = x /\ In b l.
Proof.
  induction l as [|y l IH]; cbn; [easy|]. intros a b.
  destruct (cmp x y); cbn; intros H.
  - destruct H as [[= -> ->]|[]]; auto.
  - destruct H as [[= -> ->]|[]]; auto.
  - destruct (ins cmp x l) as [r m]; cbn in *.
    destruct H as [[= -> ->]|H]; auto. apply IH in H. tauto.
Qed.

Lemma isort_made : forall A cmp (l : list A) a b, In (a, b) (snd (isort_ cmp l)) -> In a l /\ In b l.
Proof.
  induction l as [|x l IH]; cbn; [easy|]. intros a b.
  pose proof (isort_perm cmp l) as P.
  destruct (isort_ cmp l) as [s m]. cbn in P. pose proof (@ins_made _ cmp x s) as M.
  destruct (ins cmp x s) as [s' m']. cbn in *. intros H. apply in_app_or in H.
  destruct H as [H|H].
  - apply IH in H. tauto.
  - apply M in H. destruct H as [-> H]. split; auto. right.
    eapply Permutation_in; [symmetry; exact P|exact H].
Qed.

Lemma ins_local : forall A (cmp cmp2 : A -> A -> comparison) x l,
  (forall a b, In (a, b) (snd (ins cmp x l)) -> cmp2 a b = cmp a b) -> ins cmp2 x l = ins cmp x l.
Proof.
  induction l as [|y l IH]; cbn; auto. intros H.
  destruct (cmp x y) eqn:E.
  - rewrite (H x y) by (cbn; auto). rewrite E. reflexivity.
  - rewrite (H x y) by (cbn; auto). rewrite E. reflexivity.
  - destruct (ins cmp x l) as [r m] eqn:E2. rewrite (H x y) by (cbn; auto). rewrite E.
    rewrite IH; auto. intros; apply H; cbn in *; auto.
Qed.

Lemma isort_local : forall A (cmp cmp2 : A -> A -> comparison) l,
  (forall a b, In (a, b) (snd (isort_ cmp l)) -> cmp2 a b = cmp a b) -> isort_ cmp2 l = isort_ cmp l.
Proof.
  induction l as [|x l IH]; cbn; auto. intros H.
  destruct (isort_ cmp l) as [s m] eqn:E. destruct (ins cmp x s) as [s' m'] eqn:E2. cbn in *.
  rewrite IH by (intros; apply H; apply in_or_app; auto).
  rewrite (@ins_local _ cmp cmp2 x s).
  - rewrite E2. reflexivity.
  - rewrite E2. cbn. intros; apply H; apply in_or_app; auto.
Qed.

Lemma ins_sorted : forall A (P : A -> Prop) cmp x l, total_preorder_on P cmp ->
  P x -> (forall y, In y l -> P y) ->
  StronglySorted (fun a b => cmp a b <> Gt) l -> StronglySorted (fun a b => cmp a b <> Gt) (fst (ins cmp x l)).
Proof.
  intros A P cmp x l HT Px. pose proof HT as (R & S & T).
  induction l as [|y l IH]; cbn; intros HP HS; [repeat constructor|].
  inversion HS as [|? ? HS' HF]; subst.
  assert (forall c, cmp x y = c -> c <> Gt -> StronglySorted (fun a b => cmp a b <> Gt) (x :: y :: l)) as G.
  { intros c Ec Nc. constructor; auto. constructor; [congruence|].
    rewrite Forall_forall in *. intros z Hz. apply (T x y z); auto. congruence. }
  destruct (cmp x y) eqn:E; cbn; try (eapply G; [reflexivity|congruence]).
  pose proof (ins_perm cmp x l) as PM. specialize (IH (fun z Hz => HP z (or_intror Hz)) HS').
  destruct (ins cmp x l) as [r m]; cbn in *. constructor; auto.
  rewrite Forall_forall in *. intros z Hz.
  eapply Permutation_in in Hz; [|symmetry; exact PM]. destruct Hz as [<-|Hz]; auto.
  rewrite S, E; auto. cbn. congruence.
Qed.

Lemma ins_filter : forall A (P : A -> Prop) cmp x l, total_preorder_on P cmp ->
  P x -> (forall y, In y l -> P y) ->
  forall z, P z -> filter (eqv cmp z) (fst (ins cmp x l)) = filter (eqv cmp z) (x :: l).
Proof.
  intros A P cmp x l HT Px. pose proof HT as (R & S & T).
  induction l as [|y l IH]; cbn; intros HP z Pz; auto.
  destruct (cmp x y) eqn:E; cbn; auto.
  specialize (IH (fun z Hz => HP z (or_intror Hz)) z Pz).
  destruct (ins cmp x l) as [r m]; cbn in *. rewrite IH.
  destruct (eqv cmp z y) eqn:E1, (eqv cmp z x) eqn:E2; auto.
  exfalso. unfold eqv in *.
  destruct (cmp z y) eqn:F1; try discriminate. destruct (cmp z x) eqn:F2; try discriminate.
  rewrite (@cmp_eq_trans_l _ P cmp HT z x y) in F1; auto. congruence.
Qed.

Theorem isort_contract : sort_contract isort.
Proof.
  intros A cmp l. unfold isort. split; [apply isort_perm|].
  split; [|split; [apply isort_made|intros cmp2 H2; apply (@isort_local A cmp cmp2 l H2)]].
  intros HT. split; [apply isort_perm|].
  assert (forall k, (forall x, In x k -> In x l) ->
     StronglySorted (fun a b => cmp a b <> Gt) (fst (isort_ cmp k)) /\
     (forall x, In x l -> filter (eqv cmp x) (fst (isort_ cmp k)) = filter (eqv cmp x) k)) as G.
  { induction k as [|x k IH]; cbn; intros HI; [split; [constructor|auto]|].
    destruct IH as [IH1 IH2]; [intros; apply HI; auto|].
    pose proof (isort_perm cmp k) as PM.
    destruct (isort_ cmp k) as [s m]. cbn in *.
    assert (HP : forall y, In y s -> In y l).
    { intros y Hy. apply HI. right. eapply Permutation_in; [symmetry; exact PM|exact Hy]. }
    pose proof (@ins_sorted _ _ _ x s HT (HI x (or_introl eq_refl)) HP IH1) as H1.
    pose proof (@ins_filter _ _ _ x s HT (HI x (or_introl eq_refl)) HP) as H2.
    destruct (ins cmp x s) as [s' m']. cbn in *. split; auto.
    intros z Hz. rewrite H2 by auto. rewrite IH2 by auto. reflexivity. }
  destruct (G l) as [G1 G2]; auto.
Qed.

(** ** sort-by *)

Definition last_err_step {A} (cmp : A -> A -> res comparison) (e : res unit) (ab : A * A) : res unit :=
  match e with
  | Panic => Panic
  | _ => match cmp (fst ab) (snd ab) with Ok _ => e | Err x => Err x | Panic => Panic end
  end.

Lemma last_err_fold : forall A (cmp : A -> A -> res comparison) made,
  last_err cmp made = fold_left (last_err_step cmp) made (Ok tt).
Proof. reflexivity. Qed.

Lemma last_err_ok : forall A (cmp : A -> A -> res comparison) made,
  last_err cmp made = Ok tt <-> forall a b, In (a, b) made -> exists c, cmp a b = Ok c.
Proof.
  intros A cmp made. rewrite last_err_fold.
  assert (G : forall made e, fold_left (last_err_step cmp) made e
      = Ok tt -> e = Ok tt).
  { induction made0 as [|[a b] m IH]; cbn; auto. intros e H. apply IH in H.
    destruct e as [[]| |]; auto; cbn in H; destruct (cmp a b); congruence. }
  induction made as [|[a b] m IH]; cbn; [split; auto; easy|].
  split.
  - intros H. pose proof (G _ _ H) as H0. destruct (cmp a b) eqn:E; try discriminate.
    intros a' b' [[= <- <-]|Hab]; [eauto|]. apply IH; auto.
  - intros H. destruct (H a b) as [c Ec]; auto. rewrite Ec. apply IH. intros; eauto.
Qed.

Lemma last_err_err : forall A (cmp : A -> A -> res comparison) made e,
  last_err cmp made = Err e -> exists a b, In (a, b) made /\ cmp a b = Err e.
Proof.
  intros A cmp made e0. rewrite last_err_fold.
  assert (G : forall made e, fold_left (last_err_step cmp) made e
      = Err e0 -> e = Err e0 \/ exists a b, In (a, b) made /\ cmp a b = Err e0).
  { clear made. induction made as [|[a b] m IH]; cbn; auto. intros e H. apply IH in H.
    destruct H as [H|(a' & b' & Hab & Eab)]; [|eauto 6].
    destruct e as [[]| |]; cbn in H; try discriminate; destruct (cmp a b) eqn:E; try congruence; auto.
    - right; exists a, b; split; auto; congruence.
    - right; exists a, b; split; auto; congruence. }
  intros H. apply G in H. destruct H as [H|H]; [discriminate|auto].
Qed.

Lemma reorder_shared_map : forall order (t : table),
  (forall iv, In iv order -> fst iv < length t) ->
  reorder_shared order t = Ok (map (fun iv => nth (fst iv) t []) order).
Proof.
  intros order t H. unfold reorder_shared. apply rmapM_ok_iff.
  induction order as [|iv order IH]; cbn; constructor.
  - rewrite (@nth_error_nth_lt _ t (fst iv) []); auto. apply H; cbn; auto.
  - apply IH. intros; apply H; cbn; auto.
Qed.

Lemma nth_set_nth_neq : forall A (l : list A) i j x d, i <> j -> nth j (set_nth i x l) d = nth j l d.
Proof.
  induction l as [|y l IH]; intros [|i] [|j] x d H; cbn; auto; try congruence.
Qed.

Lemma reorder_owned_map : forall order (t : table),
  (forall iv, In iv order -> fst iv < length t) -> NoDup (map fst order) ->
  reorder_owned order t = Ok (map (fun iv => nth (fst iv) t []) order).
Proof.
  induction order as [|[i v] order IH]; intros t H ND; [reflexivity|].
  cbn in *. inversion ND; subst.
  rewrite (@nth_error_nth_lt _ t i []); [|apply (H (i, v)); auto].
  rewrite IH.
  - cbn. f_equal. f_equal. apply map_ext_in. intros [j w] Hj. cbn. apply nth_set_nth_neq.
    intros ->. apply H2. apply (in_map fst) in Hj. exact Hj.
  - intros iv Hiv. rewrite set_nth_length. apply H; auto.
  - auto.
Qed.

Lemma combine_seq_fst : forall A (l : list A) i, map fst (combine (seq i (length l)) l) = seq i (length l).
Proof. induction l; cbn; intros; f_equal; auto. Qed.

(** Rows with their keys, as sort-by pairs them. *)
Definition keyed (d : table) (keys : list value) : list (row * value) := combine d keys.

Lemma nth_row : forall (h : row) d i, nth (S i) (h :: d) [] = nth i d [].
Proof. reflexivity. Qed.

Lemma eqv_map_filter : forall A B (f : A -> B) (p : B -> bool) l,
  filter p (map f l) = map f (filter (fun a => p (f a)) l).
Proof. induction l as [|a l IH]; cbn; auto. destruct (p (f a)); cbn; congruence. Qed.

Lemma is_stable_sort_map : forall A B (f : A -> B) cmp l m,
  is_stable_sort (fun a b => cmp (f a) (f b)) l m -> is_stable_sort cmp (map f l) (map f m).
Proof.
  intros A B f cmp l m (P & S & F). split; [now apply Permutation_map|]. split.
  - clear -S. induction S; cbn; constructor; auto.
    rewrite Forall_map. exact H.
  - intros x Hx. apply in_map_iff in Hx. destruct Hx as (a & <- & Ha).
    rewrite !eqv_map_filter. f_equal. apply F. exact Ha.
Qed.

Theorem reorder_result : forall so owned cmp (h : row) d keys sorted,
  sort_contract so -> rectangular (h :: d) -> length keys = length d ->
  sort_values so cmp (combine (seq 0 (S (length keys))) (VNil :: keys)) = Ok sorted ->
  let pairs := combine (seq 1 (length keys)) keys in
  let sorted' := fst (so (nat * value)%type (cmp_or_eq (fun a b => cmp (snd a) (snd b))) pairs) in
  (forall a b, In (a, b) (snd (so (nat * value)%type (cmp_or_eq (fun a b => cmp (snd a) (snd b))) pairs)) ->
     exists c, cmp (snd a) (snd b) = Ok c) /\
  reorder_table owned (h :: d) sorted = Ok (h :: map (fun iv => nth (fst iv - 1) d []) sorted') /\
  Permutation pairs sorted'.
Proof.
  intros so owned cmp h d keys sorted HS HR HL HV pairs sorted'.
  cbn in HV. fold pairs in HV.
  destruct (HS (nat * value)%type (cmp_or_eq (fun a b : nat * value => cmp (snd a) (snd b))) pairs) as (HP & _ & _ & _).
  subst sorted'.
  destruct (so (nat * value)%type (cmp_or_eq (fun a b : nat * value => cmp (snd a) (snd b))) pairs)
    as [srt made] eqn:Eso. cbn in HV, HP. cbn [fst snd].
  destruct (last_err _ made) as [[]| |] eqn:El; cbn in HV; try discriminate.
  injection HV as <-.
  pose proof (proj1 (last_err_ok _ _) El) as Hmade.
  split; [exact Hmade|]. split; [|exact HP].
  assert (Hfst : Permutation (map fst srt) (seq 1 (length keys))).
  { rewrite <- (combine_seq_fst keys 1). apply Permutation_map. symmetry. exact HP. }
  assert (Hrange : forall iv, In iv srt -> 1 <= fst iv < S (length d)).
  { intros iv Hiv. apply (in_map fst) in Hiv. eapply Permutation_in in Hiv; [|exact Hfst].
    apply in_seq in Hiv. lia. }
  assert (E : (if owned then reorder_owned ((0, VNil) :: srt) (h :: d)
               else reorder_shared ((0, VNil) :: srt) (h :: d)) =
              Ok (h :: map (fun iv => nth (fst iv - 1) d []) srt)).
  { assert (map (fun iv : nat * value => nth (fst iv) (h :: d) []) ((0, VNil) :: srt) =
            h :: map (fun iv => nth (fst iv - 1) d []) srt) as <-.
    { cbn [map fst nth]. f_equal. apply map_ext_in. intros iv Hiv. specialize (Hrange _ Hiv).
      destruct (fst iv) eqn:Ei; [lia|]. cbn. now rewrite Nat.sub_0_r. }
    destruct owned.
    - apply reorder_owned_map.
      + intros iv [<-|Hiv]; cbn; [lia|]. specialize (Hrange _ Hiv). lia.
      + cbn. constructor.
        * intros H0. eapply Permutation_in in H0; [|exact Hfst]. apply in_seq in H0. lia.
        * eapply Permutation_NoDup; [symmetry; exact Hfst|apply seq_NoDup].
    - apply reorder_shared_map. intros iv [<-|Hiv]; cbn; [lia|]. specialize (Hrange _ Hiv). lia. }
  unfold reorder_table. rewrite E. cbn [rbind]. f_equal.
  apply table_from_rect. eapply rectangular_sub; [exact HR|].
  intros r [<-|Hr]; [cbn; auto|]. right. apply in_map_iff in Hr. destruct Hr as (iv & <- & Hiv).
  specialize (Hrange _ Hiv). apply nth_In. lia.
Qed.

(** Texts are compared lexicographically. *)
Lemma str_cmp_lex : forall a b, str_cmp a b = Lt <-> text_before a b.
Proof.
  unfold text_before. induction a as [|x a IH]; intros [|y b]; cbn [str_cmp].
  - split; [discriminate|]. intros (p & q & [(H & c & E)|(c & d & r & E1 & E2 & L)]).
    + destruct p; [cbn in E; discriminate|discriminate].
    + destruct p; discriminate.
  - split; [|reflexivity]. intros _. exists [], b. left. split; [reflexivity|]. now exists y.
  - split; [discriminate|]. intros (p & q & [(H & c & E)|(c & d & r & E1 & E2 & L)]); destruct p; discriminate.
  - destruct (N.compare_spec x y) as [->|L|L].
    + rewrite IH. split.
      * intros (p & q & [(H & c & E)|(c & d & r & E1 & E2 & L)]); exists (y :: p), q.
        -- left. split; [congruence|]. exists c. cbn. congruence.
        -- right. exists c, d, r. cbn. repeat split; congruence.
      * intros (p & q & [(H & c & E)|(c & d & r & E1 & E2 & L)]).
        -- destruct p as [|z p]; [discriminate|]. injection H as <- <-. cbn in E. injection E as E. exists a, q. left. eauto.
        -- destruct p as [|z p]; cbn in E1, E2.
           ++ injection E1 as -> ->. injection E2 as -> ->. lia.
           ++ injection E1 as <- E1. injection E2 as E2. exists p, q. right. eauto 6.
    + split; [|reflexivity]. intros _. exists [], a. right. exists x, y, b. auto.
    + split; [discriminate|]. intros (p & q & [(H & c & E)|(c & d & r & E1 & E2 & L2)]).
      * destruct p as [|z p]; [discriminate|]. injection H as <- <-. cbn in E. injection E as -> _. lia.
      * destruct p as [|z p]; cbn in E1, E2.
        -- injection E1 as -> ->. injection E2 as -> ->. lia.
        -- injection E1 as <- E1. injection E2 as -> E2. lia.
Qed.
