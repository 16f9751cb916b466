From Coq Require Import String List Permutation Sorted Bool Arith Lia NArith ZArith.
From Verif Require Import Spec.OpsSpec Model.Base Model.Value Model.TableCrate Model.RowPar Model.TableOps
  Spec.TableSpec Spec.ParSpec Spec.SortSpec Spec.ColSpec Spec.GroupSpec
  Proofs.ListLemmas Proofs.TableBasics Proofs.ColLemmas Proofs.RowParProofs
  Proofs.SortProofs Proofs.SortByProofs.
Import ListNotations.
Set Implicit Arguments.

Lemma cmp_eq_trans_r : forall A (P : A -> Prop) cmp, total_preorder_on P cmp ->
  forall a b c, P a -> P b -> P c -> cmp a b = Eq -> cmp c a = cmp c b.
Proof.
  intros A P cmp HT a b c Pa Pb Pc E.
  pose proof (@cmp_eq_trans_l _ _ _ HT a b c Pa Pb Pc E) as H.
  destruct HT as (R & S & T). rewrite (S a c), (S b c) by auto. now rewrite H.
Qed.

Lemma cmp_lt_trans : forall A (P : A -> Prop) cmp, total_preorder_on P cmp ->
  forall a b c, P a -> P b -> P c -> cmp a b = Lt -> cmp b c <> Gt -> cmp a c = Lt.
Proof.
  intros A P cmp HT a b c Pa Pb Pc E1 E2. pose proof HT as (R & S & T).
  assert (cmp a c <> Gt) by (apply (T a b c); auto; congruence).
  destruct (cmp a c) eqn:E; auto; try congruence.
  pose proof (@cmp_eq_trans_l _ _ _ HT a c b Pa Pc Pb E) as K.
  rewrite E1 in K. rewrite S in E2 by auto. rewrite <- K in E2. cbn in E2. congruence.
Qed.

Section Group.
  Variables K R : Type.
  Variable cmp : K -> K -> comparison.
  Variable P : K -> Prop.
  Hypothesis HT : total_preorder_on P cmp.
  Variable h : R.

  Definition grp_step (m : list (K * list R)) (x : K * R) : list (K * list R) :=
    btree_upd cmp (fst x) [h] (fun t => t ++ [snd x]) m.

  Lemma btree_upd_in : forall k new upd (m : list (K * list R)) k' t',
    In (k', t') (btree_upd cmp k new upd m) ->
    (In (k', t') m) \/ (k' = k /\ t' = upd new) \/ (exists t, In (k', t) m /\ cmp k k' = Eq /\ t' = upd t).
  Proof.
    induction m as [|[k0 t0] m IH]; cbn; intros k' t' H.
    - destruct H as [[= <- <-]|[]]; auto.
    - destruct (cmp k k0) eqn:E; cbn in H.
      + destruct H as [[= <- <-]|H]; eauto 8.
      + destruct H as [[= <- <-]|H]; auto.
      + destruct H as [[= <- <-]|H]; auto. apply IH in H.
        destruct H as [H|[H|(t & H1 & H2)]]; eauto 8.
  Qed.

  Lemma btree_upd_keys : forall k new upd (m : list (K * list R)) k',
    In k' (map fst (btree_upd cmp k new upd m)) -> In k' (map fst m) \/ k' = k.
  Proof.
    intros k new upd m k' H. apply in_map_iff in H. destruct H as ([k2 t] & <- & H).
    apply btree_upd_in in H. cbn. destruct H as [H|[[-> _]|(t0 & H & _)]]; auto;
      left; apply (in_map fst) in H; exact H.
  Qed.

  Definition sorted (m : list (K * list R)) := StronglySorted (fun a b => cmp (fst a) (fst b) = Lt) m.

  Lemma btree_upd_sorted : forall k new upd m, P k -> (forall x, In x m -> P (fst x)) ->
    sorted m -> sorted (btree_upd cmp k new upd m).
  Proof.
    intros k new upd m Pk. pose proof HT as (Rf & Sy & Tr).
    induction m as [|[k0 t0] m IH]; cbn; intros HP HS; [repeat constructor|].
    inversion HS as [|? ? HS' HF]; subst. rewrite Forall_forall in HF.
    assert (Pk0 : P k0) by (apply (HP (k0, t0)); auto).
    destruct (cmp k k0) eqn:E.
    - constructor; auto. apply Forall_forall. exact HF.
    - constructor; auto. apply Forall_forall. cbn. intros x [<-|Hx]; cbn; auto.
      apply (@cmp_lt_trans _ P cmp HT k k0 (fst x)); auto. specialize (HF x Hx). cbn in HF. congruence.
    - constructor; [apply IH; auto|]. apply Forall_forall. intros [k2 t2] Hx.
      assert (cmp k0 k = Lt) as L by (rewrite Sy, E; auto).
      apply btree_upd_in in Hx. cbn.
      destruct Hx as [H|[[-> _]|(t & H & _)]]; auto.
      + apply (HF _ H).
      + apply (HF _ H).
  Qed.

  Definition grouped (l : list (K * R)) (m : list (K * list R)) : Prop :=
    sorted m /\
    (forall k rows, In (k, rows) m ->
       (exists r, find (fun x => eqv cmp k (fst x)) l = Some (k, r)) /\
       rows = h :: map snd (filter (fun x => eqv cmp k (fst x)) l)) /\
    (forall k r, In (k, r) l -> exists k' rows, In (k', rows) m /\ cmp k k' = Eq).

  Lemma btree_upd_has : forall k new upd (m : list (K * list R)),
    (forall x, In x m -> P (fst x)) -> P k ->
    exists k' t', In (k', t') (btree_upd cmp k new upd m) /\ cmp k k' = Eq.
  Proof.
    intros k new upd m HP Pk. destruct HT as (Rf & Sy & Tr).
    induction m as [|[k0 t0] m IH]; cbn.
    - exists k, (upd new). auto.
    - destruct (cmp k k0) eqn:E.
      + exists k0, (upd t0). cbn; auto.
      + exists k, (upd new). cbn; auto.
      + destruct IH as (k' & t' & H & E'); auto. { intros; apply HP; cbn; auto. }
        exists k', t'. cbn; auto.
  Qed.

  Lemma btree_upd_keeps : forall k new upd (m : list (K * list R)) k' t', In (k', t') m ->
    exists t2, In (k', t2) (btree_upd cmp k new upd m).
  Proof.
    induction m as [|[k0 t0] m IH]; cbn; [easy|]. intros k' t' [[= <- <-]|H].
    - destruct (cmp k k0); cbn; eauto.
    - destruct (cmp k k0); cbn; eauto. destruct (IH _ _ H) as (t2 & H2); eauto.
  Qed.

  Lemma find_app_none : forall (l : list (K * R)) f x, find f l = None -> find f (l ++ [x]) = if f x then Some x else None.
  Proof. induction l as [|a l IH]; cbn; auto. intros f x. destruct (f a); [discriminate|]. auto. Qed.
  Lemma find_app_some : forall (l : list (K * R)) f x y, find f l = Some y -> find f (l ++ [x]) = Some y.
  Proof. induction l as [|a l IH]; cbn; [discriminate|]. intros f x y. destruct (f a); auto. Qed.

  (** In a sorted map the update does what a search for the key would do. *)
  Lemma btree_upd_exact : forall k new upd (m : list (K * list R)),
    sorted m -> (forall x, In x m -> P (fst x)) -> P k ->
    forall k' t', In (k', t') (btree_upd cmp k new upd m) ->
      (cmp k k' <> Eq /\ In (k', t') m) \/
      (cmp k k' = Eq /\ exists t, In (k', t) m /\ t' = upd t) \/
      (k' = k /\ t' = upd new /\ forall x, In x m -> cmp k (fst x) <> Eq).
  Proof.
    intros k new upd m. pose proof HT as (Rf & Sy & Tr).
    induction m as [|[k0 t0] m IH]; cbn; intros HS HP Pk k' t' H.
    - destruct H as [[= <- <-]|[]]. right; right. auto.
    - inversion HS as [|? ? HS' HF]; subst. rewrite Forall_forall in HF.
      assert (Pk0 : P k0) by (apply (HP (k0, t0)); auto).
      assert (HP' : forall x, In x m -> P (fst x)) by auto.
      destruct (cmp k k0) eqn:E; cbn in H.
      + destruct H as [[= <- <-]|H].
        * right; left. split; auto. exists t0; auto.
        * left. split; auto. intros E2.
          pose proof (HF _ H) as L. cbn in L.
          rewrite <- (@cmp_eq_trans_l _ P cmp HT k k0 k') in L; auto; [congruence|apply (HP' _ H)].
      + assert (forall x, In x m -> cmp k (fst x) = Lt) as LL.
        { intros x Hx. apply (@cmp_lt_trans _ P cmp HT k k0 (fst x)); auto. specialize (HF _ Hx). cbn in HF. congruence. }
        destruct H as [[= <- <-]|[[= <- <-]|H]].
        * right; right. split; auto. split; auto. intros x [<-|Hx]; cbn; [congruence|]. rewrite LL; auto. congruence.
        * left. split; auto. congruence.
        * left. split; auto. specialize (LL _ H). cbn in LL. congruence.
      + destruct H as [[= <- <-]|H].
        * left. split; auto. congruence.
        * destruct (IH HS' HP' Pk _ _ H) as [[A B]|[(A & t & B & D)|(A & B & D)]].
          { left; auto. }
          { right; left. split; auto. exists t; auto. }
          { right; right. split; auto. split; auto. intros x [<-|Hx]; cbn; [congruence|auto]. }
  Qed.

  Lemma grouped_step : forall l m k r,
    (forall x, In x l -> P (fst x)) -> P k ->
    grouped l m -> grouped (l ++ [(k, r)]) (grp_step m (k, r)).
  Proof.
    intros l m k r HPl Pk (HS & HG & HA). pose proof HT as (Rf & Sy & Tr).
    assert (HPm : forall x, In x m -> P (fst x)).
    { intros [k' t] Hx. cbn. destruct (HG _ _ Hx) as ((r' & Hr) & _).
      apply find_some in Hr. apply (HPl _ (proj1 Hr)). }
    unfold grp_step. cbn [fst snd]. split; [|split].
    - now apply btree_upd_sorted.
    - intros k' t' H. rewrite filter_app, map_app. cbn [filter fst].
      destruct (@btree_upd_exact k [h] (fun t => t ++ [r]) m HS HPm Pk k' t' H) as [[A B]|[(A & t & B & D)|(A & B & D)]].
      + destruct (HG _ _ B) as ((r' & Hr) & Et).
        assert (eqv cmp k' k = false) as ->.
        { unfold eqv. rewrite Sy; auto; [|apply (HPm _ B)]. destruct (cmp k k'); cbn; congruence. }
        split; [exists r'; now apply find_app_some|]. cbn. rewrite app_nil_r. exact Et.
      + destruct (HG _ _ B) as ((r' & Hr) & Et).
        assert (eqv cmp k' k = true) as ->.
        { unfold eqv. rewrite Sy; auto; [|apply (HPm _ B)]. now rewrite A. }
        split; [exists r'; now apply find_app_some|]. subst. reflexivity.
      + subst.
        assert (eqv cmp k k = true) as E by (unfold eqv; now rewrite Rf).
        assert (NF : forall x, In x l -> eqv cmp k (fst x) = false).
        { intros [kx rx] Hx. destruct (HA _ _ Hx) as (k2 & t2 & H2 & E2). cbn. unfold eqv.
          destruct (cmp k kx) eqn:Ex; auto. exfalso.
          rewrite (@cmp_eq_trans_r _ P cmp HT kx k2 k) in Ex; auto.
          - eapply (D _ H2). exact Ex.
          - apply (HPl _ Hx).
          - apply (HPm _ H2). }
        assert (F0 : filter (fun x => eqv cmp k (fst x)) l = []).
        { clear -NF. induction l as [|a l IH]; cbn; auto. rewrite NF by (cbn; auto). apply IH. intros; apply NF; cbn; auto. }
        rewrite F0, E. split; [|reflexivity]. exists r.
        rewrite find_app_none; [cbn; now rewrite E|].
        clear -NF. induction l as [|a l IH]; cbn; auto. rewrite NF by (cbn; auto). apply IH. intros; apply NF; cbn; auto.
    - intros kx rx H. apply in_app_or in H. destruct H as [H|[[= <- <-]|[]]].
      + destruct (HA _ _ H) as (k' & t' & H' & E').
        destruct (@btree_upd_keeps k [h] (fun t => t ++ [r]) m k' t' H') as (t2 & H2). eauto.
      + now apply btree_upd_has.
  Qed.

  Lemma grouped_fold : forall l l0 m, (forall x, In x (l0 ++ l) -> P (fst x)) ->
    grouped l0 m -> grouped (l0 ++ l) (fold_left grp_step l m).
  Proof.
    induction l as [|[k r] l IH]; intros l0 m HP HG; cbn [fold_left].
    - now rewrite app_nil_r.
    - replace (l0 ++ (k, r) :: l) with ((l0 ++ [(k, r)]) ++ l) by (rewrite <- app_assoc; reflexivity).
      apply IH.
      + intros x Hx. apply HP. rewrite <- app_assoc in Hx. exact Hx.
      + apply grouped_step; auto.
        * intros x Hx. apply HP. apply in_or_app; auto.
        * apply (HP (k, r)). apply in_or_app; cbn; auto.
  Qed.

  Lemma grouped_all : forall l, (forall x, In x l -> P (fst x)) -> is_grouping cmp l h (fold_left grp_step l []).
  Proof.
    intros l HP. apply (@grouped_fold l [] []); auto.
    split; [constructor|]. split; intros; easy.
  Qed.
End Group.

(** ** Building the output table *)

Definition group_rows {K} (m : list (K * table)) (kv : K -> value) : table :=
  map (fun kt => [ent_of_val (kv (fst kt)); EObj (VTab (snd kt))]) m.

Lemma build_table_from_map_eq : forall K (m : list (K * table)) kv,
  build_table_from_map m kv = [o (lit "key"); o (lit "value")] :: group_rows m kv.
Proof.
  intros K m kv. unfold build_table_from_map, add_rows, add_row, add_rows. cbn [app].
  rewrite (@table_from_rect [[o (lit "key"); o (lit "value")]]).
  2:{ intros r s [<-|[]] [<-|[]]; auto. }
  cbn [app]. rewrite table_from_rect; [reflexivity|].
  assert (W : forall r, In r ([o (lit "key"); o (lit "value")] :: map (fun kv0 => [ent_of_val (kv (fst kv0)); ent_of_val (VTab (snd kv0))]) m) -> length r = 2).
  { intros r [<-|H]; auto. apply in_map_iff in H. destruct H as (x & <- & _). reflexivity. }
  intros r s Hr Hs. rewrite (W r), (W s); auto.
Qed.

(** ** Appending rows of the same width never pads *)

Lemma add_row_same : forall (t : table) r w, width_is w t -> length r = w -> add_row t r = t ++ [r].
Proof.
  intros t r w HW HL. unfold add_row, add_rows. apply table_from_rect.
  intros a b Ha Hb. apply in_app_or in Ha. apply in_app_or in Hb.
  assert (forall x, In x t \/ In x [r] -> length x = w) as G.
  { intros x [H|[<-|[]]]; auto. }
  rewrite (G a), (G b); auto.
Qed.

Lemma btree_upd_ext : forall K V (cmp : K -> K -> comparison) k new (u1 u2 : V -> V) (m : list (K * V)),
  u1 new = u2 new -> (forall x, In x m -> u1 (snd x) = u2 (snd x)) ->
  btree_upd cmp k new u1 m = btree_upd cmp k new u2 m.
Proof.
  induction m as [|[k0 v0] m IH]; cbn; intros H0 H; [now rewrite H0|].
  destruct (cmp k k0).
  - specialize (H (k0, v0) (or_introl eq_refl)). cbn in H. now rewrite H.
  - now rewrite H0.
  - rewrite IH; auto.
Qed.

Definition all_width (w : nat) {K} (m : list (K * table)) := forall x, In x m -> width_is w (snd x).

Lemma btree_add_row : forall K (cmp : K -> K -> comparison) k (h r : row) w (m : list (K * table)),
  length h = w -> length r = w -> all_width w m ->
  btree_upd cmp k (add_row [] h) (fun t => add_row t r) m =
  btree_upd cmp k [h] (fun t => t ++ [r]) m /\
  all_width w (btree_upd cmp k [h] (fun t => t ++ [r]) m).
Proof.
  intros K cmp k h r w m Hh Hr HW.
  assert (E1 : add_row [] h = [h]) by (apply (@add_row_same [] h w); auto; intros ? []).
  assert (W1 : width_is w [h]) by (intros x [<-|[]]; auto).
  rewrite E1. split.
  - apply btree_upd_ext.
    + now apply (@add_row_same [h] r w).
    + intros x Hx. apply (@add_row_same (snd x) r w); auto.
  - intros [k' t'] H. cbn. apply btree_upd_in in H.
    assert (forall t, width_is w t -> width_is w (t ++ [r])) as G.
    { intros t Ht x Hx. apply in_app_or in Hx. destruct Hx as [Hx|[<-|[]]]; auto. }
    destruct H as [H|[[-> ->]|(t & H & _ & ->)]].
    + apply (HW _ H).
    + now apply G.
    + apply G. apply (HW _ H).
Qed.

(** ** grp *)

Lemma join_hyphen_cons : forall s l, l <> [] -> join_hyphen (s :: l) = s ++ lit "-" ++ join_hyphen l.
Proof. intros s [|x l] H; [congruence|reflexivity]. Qed.

Lemma grp_key_spec : forall fmt parts, grp_key fmt parts = join_hyphen (drop_empty (map fmt parts)).
Proof.
  intros fmt parts. unfold grp_key.
  assert (G : forall parts k, k <> [] ->
    fold_left (fun k e => (match k with [] => k | _ => k ++ lit "-" end) ++ fmt e) parts k
    = join_hyphen (k :: map fmt parts)).
  { induction parts0 as [|e ps IH]; intros k Hk; [reflexivity|]. cbn [fold_left map].
    destruct k as [|c k]; [congruence|]. rewrite IH.
    2:{ cbn. discriminate. }
    rewrite (@join_hyphen_cons (c :: k) (fmt e :: map fmt ps)) by discriminate.
    destruct ps as [|e2 ps].
    - cbn [map join_hyphen]. now rewrite <- app_assoc.
    - cbn [map]. rewrite !join_hyphen_cons by discriminate. now rewrite <- !app_assoc. }
  induction parts as [|e ps IH]; [reflexivity|]. cbn [fold_left map drop_empty app].
  destruct (fmt e) as [|c s] eqn:E; [exact IH|]. cbn [drop_empty]. now apply G.
Qed.


Lemma key_parts_ok : forall cols (r : row), (forall c, In c cols -> c < length r) ->
  key_parts cols r = Ok (map (fun c => cell_at c r) cols).
Proof.
  intros cols r H. apply rmapM_ok_iff.
  induction cols as [|c cols IH]; cbn; constructor.
  - rewrite (@nth_error_nth_lt _ r c ENil); auto. apply H; cbn; auto.
  - apply IH. intros; apply H; cbn; auto.
Qed.

Lemma grp_loop_ok : forall fmt cols (h : row) rows m w,
  length h = w -> width_is w rows -> (forall c, In c cols -> c < w) -> all_width w m ->
  grp_loop fmt cols h rows m =
  Ok (fold_left (grp_step str_cmp h) (map (fun r => (group_key fmt cols r, r)) rows) m).
Proof.
  induction rows as [|r rows IH]; intros m w Hh HW HC HM; [reflexivity|].
  cbn [grp_loop map fold_left].
  assert (Hr : length r = w) by (apply HW; cbn; auto).
  rewrite key_parts_ok by (intros; rewrite Hr; auto). cbn [rbind].
  destruct (@btree_add_row _ str_cmp (grp_key fmt (map (fun c => cell_at c r) cols)) h r w m Hh Hr HM) as [E W].
  rewrite E. rewrite (@IH _ w); auto.
  - unfold grp_step at 3. cbn [fst snd]. rewrite grp_key_spec, map_map. reflexivity.
  - intros x Hx. apply HW; cbn; auto.
Qed.

Theorem grp_table_correct : forall fmt names (t : table), rectangular t ->
  match grp_table fmt names t with
  | Ok t' => exists h d cols groups, t = h :: d /\ Forall2 (column_named t) names cols /\
      is_grouping str_cmp (map (fun r => (group_key fmt cols r, r)) d) h groups /\
      t' = [EObj (VStr (lit "key")); EObj (VStr (lit "value"))] ::
           map (fun g => [EObj (VStr (fst g)); EObj (VTab (snd g))]) groups
  | Err _ => t = [] \/ exists n, In n names /\ no_column_named t n
  | Panic => False
  end.
Proof.
  intros fmt names t HR. destruct t as [|h d]; [cbn; auto|].
  unfold grp_table. pose proof (resolve_indices_spec names (h :: d)) as HI.
  destruct (resolve_indices names (h :: d)) as [cols|e|]; cbn [rbind]; auto.
  assert (HC : forall c, In c cols -> c < length h).
  { clear -HI. induction HI; cbn; [easy|]. intros c [<-|H1]; auto. apply column_named_width in H. exact H. }
  assert (HW : width_is (length h) d) by (apply rectangular_cons; auto).
  rewrite (@grp_loop_ok fmt cols h d [] (length h)); auto; [|intros ? []].
  cbn [rbind]. rewrite build_table_from_map_eq.
  exists h, d, cols. eexists. split; [reflexivity|]. split; auto. split; [|reflexivity].
  apply grouped_all with (P := fun _ => True); auto. apply str_cmp_total.
Qed.

(** ** grp-by *)

Lemma grpby_loop_ok : forall cmp (h : row) rows keys m w,
  length h = w -> width_is w rows -> all_width w m -> length keys = length rows ->
  grpby_loop cmp h rows keys m = fold_left (grp_step (cmp_or_eq cmp) h) (combine keys rows) m.
Proof.
  induction rows as [|r rows IH]; intros [|k keys] m w Hh HW HM HL; cbn in HL; try discriminate; [reflexivity|].
  cbn [grpby_loop combine fold_left].
  assert (Hr : length r = w) by (apply HW; cbn; auto).
  destruct (@btree_add_row _ (cmp_or_eq cmp) k h r w m Hh Hr HM) as [E W].
  rewrite E. rewrite (@IH keys _ w); auto. intros x Hx. apply HW; cbn; auto.
Qed.

Lemma find_ext' : forall A (f g : A -> bool) l, (forall x, In x l -> f x = g x) -> find f l = find g l.
Proof.
  induction l as [|a l IH]; cbn; auto. intros H. rewrite <- (H a) by auto.
  destruct (f a); auto.
Qed.

Lemma btree_upd_cmp_ext : forall K V (c1 c2 : K -> K -> comparison) k (new : V) u m,
  (forall x, In x m -> c1 k (fst x) = c2 k (fst x)) -> btree_upd c1 k new u m = btree_upd c2 k new u m.
Proof.
  induction m as [|[k0 v0] m IH]; cbn; auto. intros H.
  pose proof (H (k0, v0) (or_introl eq_refl)) as E. cbn in E. rewrite <- E. destruct (c1 k k0); auto. rewrite IH; auto.
Qed.

Lemma grp_fold_cmp_ext : forall K R (c1 c2 : K -> K -> comparison) (h : R) (P : K -> Prop) l m,
  (forall a b, P a -> P b -> c1 a b = c2 a b) -> (forall x, In x l -> P (fst x)) -> (forall x, In x m -> P (fst x)) ->
  fold_left (grp_step c1 h) l m = fold_left (grp_step c2 h) l m.
Proof.
  induction l as [|[k r] l IH]; intros m HE HL HM; [reflexivity|]. cbn [fold_left].
  unfold grp_step at 2 4. cbn [fst snd].
  assert (Pk : P k) by (apply (HL (k, r)); cbn; auto).
  rewrite (@btree_upd_cmp_ext _ _ c1 c2); [|intros; apply HE; auto].
  apply IH; auto.
  - intros; apply HL; cbn; auto.
  - intros [k' t'] H. apply btree_upd_in in H. cbn.
    destruct H as [H|[[-> _]|(t & H & _)]]; auto; apply (HM _ H).
Qed.


Theorem grpby_outcome : forall C (ev : C -> nat -> res value * C) init g sched cmp (t : table),
  rectangular t -> row_function ev init g -> complete_schedule (length t) sched ->
  match grpby_table ev init sched cmp t with
  | Ok t' =>
      exists keys, map Ok keys = map g (seq 1 (length (data t))) /\
        forall c, decides_order cmp keys c ->
          exists groups, (forall h d, t = h :: d -> is_grouping c (combine keys d) h groups) /\
            (t = [] -> groups = []) /\
            t' = [EObj (VStr (lit "key")); EObj (VStr (lit "value"))] ::
                 map (fun g => [ent_of_val (fst g); EObj (VTab (snd g))]) groups
  | Err e => exists i, 1 <= i <= length (data t) /\ g i = Err e
  | Panic => exists i, 1 <= i <= length (data t) /\ g i = Panic
  end.
Proof.
  intros C ev init g sched cmp t HR Hev HC.
  destruct t as [|h d].
  { unfold grpby_table, resolve_trow_expr_par. cbn.
    unfold complete_schedule in HC. cbn in HC. apply Permutation_sym, Permutation_nil in HC.
    apply map_eq_nil in HC. subst. cbn [fold_left par_over_tablerows rbind].
    exists []. split; auto. intros c _. exists []. split; [discriminate|]. split; auto. }
  pose proof (@resolve_keys_outcome C ev init g sched h d Hev HC) as H.
  unfold grpby_table. destruct (resolve_trow_expr_par ev init sched (h :: d)) as [l|e|]; cbn [rbind data]; auto.
  destruct H as (keys & -> & HK).
  assert (HL : length keys = length d).
  { apply (f_equal (@length _)) in HK. rewrite !map_length, seq_length in HK. exact HK. }
  exists keys. split; auto. intros c [HT HA].
  assert (HW : width_is (length h) d) by (apply rectangular_cons; auto).
  rewrite build_table_from_map_eq.
  rewrite (@grpby_loop_ok cmp h d keys [] (length h)); auto; [|intros ? []].
  rewrite (@grp_fold_cmp_ext _ _ (cmp_or_eq cmp) c h (fun k => In k keys)).
  2:{ intros a b Ha Hb. unfold cmp_or_eq. now rewrite HA. }
  2:{ intros [k r] Hx. apply in_combine_l in Hx. exact Hx. }
  2:{ intros ? []. }
  eexists. split; [|split; [discriminate|reflexivity]].
  intros h' d' [= <- <-]. apply grouped_all with (P := fun k => In k keys); auto.
  intros [k r] Hx. apply in_combine_l in Hx. exact Hx.
Qed.
