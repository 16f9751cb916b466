(** What further table commands put into tables, and that they do not panic on rectangular ones. *)
From Coq Require Import String List ZArith NArith Bool Lia Permutation.
From Verif Require Import Model.Base Model.Value Model.TableCrate Model.RowPar Model.TableOps Spec.TableSpec Spec.SortSpec Spec.ColSpec Spec.TypingSpec
  Proofs.ListLemmas Proofs.TableBasics Proofs.AppendProofs Proofs.AddTableProofs Proofs.RectProofs Proofs.TypedTables.
Import ListNotations.

Lemma behaves_imp' {A} (P Q : A -> Prop) r : (forall a, P a -> Q a) -> behaves P r -> behaves Q r.
Proof. destruct r; cbn; auto. Qed.

Section Fine.
Variable P : value -> Prop.
Hypothesis Pstr : forall s, P (VStr s).
Local Notation ent_ok := (ent_ok P).
Local Notation row_ok := (row_ok P).
Local Notation cells_ok := (cells_ok P).
Definition fine (t : table) : Prop := rectangular t /\ cells_ok t.
Hypothesis Ptab : forall t, fine t -> P (VTab t).

Lemma col_idx_lt t name : behaves (fun j => j < cols_len t) (col_idx t name).
Proof.
  unfold col_idx. destruct t as [|h d]; [cbn; lia|]. cbn [cols_len].
  assert (K : forall j, hdr_position name h = Some j -> j < length h).
  { induction h as [|e h IH]; intros j H; cbn in H; [discriminate|].
    assert (K : option_map S (hdr_position name h) = Some j -> j < length (e :: h)).
    { destruct (hdr_position name h) as [k|]; cbn; [|discriminate]. intro E. injection E as <-. specialize (IH _ eq_refl). lia. }
    destruct e as [| |[]]; auto. destruct (str_eqb s name); auto. injection H as <-. cbn. lia. }
  destruct (hdr_position name h) as [j|]; cbn; [auto|lia].
Qed.
Lemma behaves_map {A B} (f : A -> res B) (Q : B -> Prop) l : (forall a, In a l -> behaves Q (f a)) -> behaves (Forall Q) (rmapM f l).
Proof.
  induction l as [|a l IH]; intros H; cbn [rmapM]; [constructor|]. assert (K := H a (or_introl eq_refl)). destruct (f a) as [b| |]; cbn in *; auto.
  specialize (IH (fun x Hx => H x (or_intror Hx))). destruct (rmapM f l); cbn in *; auto.
Qed.
Lemma indices_lt names t : behaves (Forall (fun j => j < cols_len t)) (resolve_indices names t).
Proof. apply behaves_map. intros n _. apply col_idx_lt. Qed.

(** *** dedup *)
Lemma same_on_ok cols a b : Forall (fun j => j < length a) cols -> length b = length a -> exists x, same_on cols a b = Ok x.
Proof.
  intros F E. induction F as [|j cols Hj F IH]; cbn [same_on]; [eexists; reflexivity|].
  destruct (nth_error a j) as [x|] eqn:Ea; [|apply nth_error_None in Ea; lia].
  destruct (nth_error b j) as [y|] eqn:Eb; [|apply nth_error_None in Eb; lia].
  destruct (ent_eqb x y); eauto.
Qed.
Lemma dedup_from_ok (same : row -> row -> res bool) (t : table) : (forall a b, In a t -> In b t -> exists x, same a b = Ok x) ->
  forall l last, incl l t -> In last t -> exists r, dedup_by_from same last l = Ok r /\ incl r l.
Proof.
  intros H. induction l as [|a l IH]; intros last Hl Hi; cbn [dedup_by_from]; [exists []; split; [reflexivity|apply incl_refl]|].
  assert (Ha : In a t) by (apply Hl; left; reflexivity). assert (Hl' : incl l t) by (intros x Hx; apply Hl; right; exact Hx).
  destruct (H a last Ha Hi) as [[|] E]; rewrite E; cbn [rbind].
  - destruct (IH last Hl' Hi) as (r & Er & Hr). exists r. split; auto. intros x Hx. right. auto.
  - destruct (IH a Hl' Ha) as (r & Er & Hr). rewrite Er. cbn [rbind]. eexists. split; [reflexivity|]. intros x [->|Hx]; [left; reflexivity|right; auto].
Qed.
Lemma dedup_fine names t : fine t -> behaves fine (dedup_table names t).
Proof.
  intros [R C]. unfold dedup_table.
  assert (B : behaves (Forall (fun j => j < cols_len t)) (match names with Some ns => resolve_indices ns t | None => Ok (seq 0 (cols_len t)) end)).
  { destruct names; [apply indices_lt|]. cbn. apply Forall_forall. intros j Hj. apply in_seq in Hj. lia. }
  destruct (match names with Some ns => _ | None => _ end) as [cols|e|]; cbn [rbind]; auto. cbn in B.
  assert (K : exists r, dedup_by (same_on cols) t = Ok r /\ incl r t).
  { unfold dedup_by. destruct t as [|h d]; [exists []; split; [reflexivity|apply incl_refl]|].
    destruct (dedup_from_ok (same_on cols) (h :: d)) with (l := d) (last := h) as (r & E & I).
    - intros a b Ha Hb. apply same_on_ok; [|apply R; auto]. rewrite (rectangular_width R a Ha). exact B.
    - intros x Hx. right. exact Hx.
    - left. reflexivity.
    - rewrite E. cbn [rbind]. eexists. split; [reflexivity|]. intros x [->|Hx]; [left; reflexivity|right; auto]. }
  destruct K as (r & E & I). rewrite E. cbn [rbind]. split; [apply table_from_rectangular|]. apply from_ok. apply cells_sub with (t := t); auto.
Qed.

(** *** sort *)
Lemma sort_fine so names t : sort_contract so -> fine t -> behaves fine (sort_table so names t).
Proof.
  intros S [R C]. assert (B : behaves (fun _ => True) (sort_table so names t)).
  { unfold sort_table. assert (B := indices_lt names t). destruct (resolve_indices names t); cbn in *; auto. }
  assert (K : forall t', sort_table so names t = Ok t' -> fine t').
  { intros t' E. split; [eapply sort_rect; eauto|]. unfold sort_table in E. destruct (resolve_indices names t) as [cols| |]; try discriminate.
    cbn [rbind] in E. injection E as <-. clear R B. revert t C. induction cols as [|c cols IH]; intros t C; cbn [fold_left]; auto. apply IH.
    destruct t as [|h d]; auto. cbn [table_sort]. inversion C; subst. constructor; auto. apply cells_sub with (t := d); auto. intros r Hr.
    destruct (S row (fun a b => cmp_table_entries (nth c a ENil) (nth c b ENil)) d) as [HP _]. eapply Permutation_in; [apply Permutation_sym, HP|exact Hr]. }
  destruct (sort_table so names t) as [t'| |]; auto. apply K. reflexivity.
Qed.

(** *** pick *)
Definition idx_ok (w : nat) (x : option nat * str) : Prop := match fst x with Some j => j < w | None => True end.
Lemma pick_row_ok w idxs i r : Forall (idx_ok w) idxs -> length r = w -> row_ok r -> behaves row_ok (pick_row idxs i r).
Proof.
  intros F E R. apply behaves_map. rewrite Forall_forall in F. intros [[j|] n] Hx; specialize (F _ Hx); cbn in F.
  - destruct (nth_error r j) as [e|] eqn:Ee; [|apply nth_error_None in Ee; lia]. cbn. apply nth_error_In in Ee. unfold row_ok in R.
    rewrite Forall_forall in R. auto.
  - cbn. destruct (i =? 0); cbn; auto.
Qed.
Lemma pick_fine add trail names t : fine t -> behaves fine (pick_table add trail names t).
Proof.
  intros [R C]. unfold pick_table.
  assert (B : behaves (Forall (idx_ok (cols_len t))) (pick_indices add names t)).
  { apply behaves_map. intros n _. assert (K := col_idx_lt t n). destruct (col_idx t n); cbn in *; auto. destruct add; cbn; auto. }
  destruct (pick_indices add names t) as [idxs| |]; cbn [rbind]; auto. cbn in B.
  set (idxs' := if trail then _ else _).
  assert (F : Forall (idx_ok (cols_len t)) idxs').
  { unfold idxs'. destruct trail; auto. apply Forall_app. split; auto. apply Forall_forall. intros x Hx. unfold pick_trail in Hx.
    apply in_map_iff in Hx. destruct Hx as (j & <- & Hj). apply filter_In in Hj. destruct Hj as [Hj _]. apply in_seq in Hj. cbn. lia. }
  assert (K : forall d i, (forall r, In r d -> length r = cols_len t) -> cells_ok d -> behaves cells_ok (pick_rows idxs' i d)).
  { induction d as [|r d IH]; intros i Hw Hc; cbn [pick_rows]; [constructor|]. inversion Hc; subst.
    assert (Kr := pick_row_ok (cols_len t) idxs' i r F (Hw r (or_introl eq_refl)) H1). destruct (pick_row idxs' i r); cbn in *; auto.
    assert (Kd := IH (S i) (fun x Hx => Hw x (or_intror Hx)) H2). destruct (pick_rows idxs' (S i) d); cbn in *; auto. constructor; auto. }
  specialize (K t 0 (rectangular_width R) C). destruct (pick_rows idxs' 0 t); cbn in *; auto. split; [apply table_from_rectangular|]. apply from_ok. exact K.
Qed.

(** *** grouping *)
Lemma add_rows_fine t rs : cells_ok t -> cells_ok rs -> fine (add_rows t rs).
Proof. intros C D. split; [apply add_rows_rect|]. apply from_ok. apply Forall_app. auto. Qed.
Lemma build_fine {K} (m : list (K * table)) f : (forall x, In x m -> P (f (fst x)) /\ fine (snd x)) -> fine (build_table_from_map m f).
Proof.
  intro H. apply add_rows_fine.
  - apply add_rows_fine; [constructor|]. repeat constructor; apply Pstr.
  - apply Forall_forall. intros r Hr. apply in_map_iff in Hr. destruct Hr as (x & <- & Hx). destruct (H x Hx) as [H1 H2].
    repeat constructor; [apply val_ent_ok; exact H1|apply val_ent_ok; apply Ptab; exact H2].
Qed.
Lemma upd_fine {K} cmp (k : K) hdr r m (Q : K -> Prop) : Q k -> row_ok hdr -> row_ok r -> (forall x, In x m -> Q (fst x) /\ fine (snd x)) ->
  forall x, In x (btree_upd cmp k (add_row [] hdr) (fun t => add_row t r) m) -> Q (fst x) /\ fine (snd x).
Proof.
  intros Hk Hh Hr.
  assert (Old : forall v, fine v -> fine (add_row v r)) by (intros v [_ H]; apply add_rows_fine; [exact H|repeat constructor; exact Hr]).
  assert (New : fine (add_row (add_row [] hdr) r)) by (apply Old; apply add_rows_fine; [constructor|repeat constructor; exact Hh]).
  induction m as [|[k' v] m IH]; intros Hm x; cbn [btree_upd].
  - intros [<-|[]]. cbn [fst snd]. auto.
  - assert (H0 := Hm _ (or_introl eq_refl)). cbn [fst snd] in H0. destruct H0 as [H1 H2].
    destruct (cmp k k'); cbn [In]; intros Hx.
    + destruct Hx as [<-|Hx]; [|apply Hm; right; auto]. cbn [fst snd]. auto.
    + destruct Hx as [<-|Hx]; [cbn [fst snd]; auto|]. apply Hm. exact Hx.
    + destruct Hx as [<-|Hx]; [apply Hm; left; reflexivity|]. apply IH; auto. intros y Hy. apply Hm. right. exact Hy.
Qed.
Lemma grp_fine fmt names t : fine t -> behaves fine (grp_table fmt names t).
Proof.
  intros [R C]. unfold grp_table. destruct t as [|h d]; [cbn; lia|]. assert (B := indices_lt names (h :: d)).
  destruct (resolve_indices names (h :: d)) as [cols| |]; cbn [rbind]; auto. cbn [behaves cols_len] in B. inversion C; subst.
  assert (K : forall rows m, (forall r, In r rows -> length r = length h) -> cells_ok rows -> (forall x, In x m -> True /\ fine (snd x)) ->
     behaves (fun m => forall x, In x m -> True /\ fine (snd x)) (grp_loop fmt cols h rows m)).
  { induction rows as [|r rows IH]; intros m Hw Hc Hm; cbn [grp_loop]; auto. inversion Hc; subst.
    assert (Kr : behaves (fun _ => True) (key_parts cols r)).
    { eapply behaves_imp'; [|apply behaves_map with (Q := fun _ => True)]; auto. intros j Hj. rewrite Forall_forall in B. specialize (B j Hj).
      destruct (nth_error r j) eqn:E; cbn; auto. apply nth_error_None in E. rewrite (Hw r (or_introl eq_refl)) in E. lia. }
    destruct (key_parts cols r); cbn [rbind]; cbn in Kr; auto. apply IH; auto.
    - intros x Hx. apply Hw. right. exact Hx.
    - apply upd_fine with (Q := fun _ => True); auto. }
  specialize (K d []). destruct (grp_loop fmt cols h d []) as [m| |]; cbn [rbind]; try (apply K; auto; try (intros r Hr; apply R; cbn; auto); intros x []).
  cbn [behaves]. apply build_fine. intros x Hx. split; [apply Pstr|]. apply K; auto; [intros r Hr; apply R; cbn; auto|intros y []].
Qed.
Lemma grpby_fine cmp h d keys : row_ok h -> cells_ok d -> Forall P keys -> fine (build_table_from_map (grpby_loop cmp h d keys []) (fun k => k)).
Proof.
  intros Hh Hd Hk. apply build_fine.
  assert (K : forall rows keys m, cells_ok rows -> Forall P keys -> (forall x, In x m -> P (fst x) /\ fine (snd x)) ->
     forall x, In x (grpby_loop cmp h rows keys m) -> P (fst x) /\ fine (snd x)).
  { induction rows as [|r rows IH]; intros ks m Hc Hks Hm; cbn [grpby_loop]; auto. destruct ks as [|k ks]; auto.
    inversion Hc; inversion Hks; subst. apply IH; auto. apply upd_fine with (Q := P); auto. }
  apply K; auto. intros x [].
Qed.

(** *** adding *)
Lemma widen_row_ok w r : row_ok r -> row_ok (widen w r).
Proof.
  intro H. unfold widen. apply Forall_forall. intros e He. apply in_map_iff in He. destruct He as (j & <- & _).
  destruct (nth_in_or_default j r ENil) as [K| ->]; [|exact I]. unfold row_ok in H. rewrite Forall_forall in H. auto.
Qed.
Lemma nth_row_ok t i : cells_ok t -> row_ok (nth i t []).
Proof. intro C. destruct (nth_in_or_default i t []) as [K| ->]; [|constructor]. unfold cells_ok in C. rewrite Forall_forall in C. auto. Qed.
Lemma add_fine byrow intersect p n : byrow = false \/ intersect = true -> fine p -> fine n -> behaves fine (add_table2 byrow intersect p n).
Proof.
  intros Hb [Rp Cp] [Rn Cn].
  assert (K : exists t, add_table2 byrow intersect p n = Ok t /\ cells_ok t).
  { unfold add_table2. destruct byrow.
    - destruct Hb as [| ->]; [discriminate|]. rewrite add_by_row_intersect by auto. eexists. split; [reflexivity|].
      apply Forall_forall. intros r Hr. apply in_map_iff in Hr. destruct Hr as (x & <- & Hx). apply in_app_or in Hx.
      assert (Hrx : row_ok x).
      { destruct Hx as [Hx|Hx]; [unfold cells_ok in Cp; rewrite Forall_forall in Cp; auto|]. unfold cells_ok in Cn. rewrite Forall_forall in Cn. apply Cn.
        destruct n; [destruct Hx|right; exact Hx]. }
      unfold row_ok in *. rewrite Forall_forall in *. intros e He. apply Hrx. eapply firstn_sub; eauto.
    - eexists. split; [reflexivity|]. apply Forall_forall. intros r Hr. apply In_nth_error in Hr. destruct Hr as (i & Hi). destruct intersect.
      + destruct (@add_by_col_intersect p n Rp Rn) as [L K].
        assert (i < length (add_table_by_col true p n)) by (apply nth_error_Some; congruence).
        destruct (K i ltac:(lia)) as (rp & rn & A & B & D). assert (r = rp ++ rn) as -> by congruence.
        apply nth_error_In in A, B. apply Forall_app. split; [exact (proj1 (Forall_forall _ _) Cp _ A)|exact (proj1 (Forall_forall _ _) Cn _ B)].
      + destruct (@add_by_col_union p n Rp Rn) as [L K].
        assert (i < length (add_table_by_col false p n)) by (apply nth_error_Some; congruence).
        rewrite K in Hi by (rewrite <- L; auto). assert (r = widen (cols_len p) (nth i p []) ++ widen (cols_len n) (nth i n [])) as -> by congruence.
        apply Forall_app. split; apply widen_row_ok; apply nth_row_ok; auto. }
  destruct K as (t & E & C). rewrite E. cbn. split; auto. eapply add_rect; [| |exact E]; auto.
Qed.

(** *** columns *)
Lemma remove_nth_sub {A} (l : list A) i x : In x (remove_nth i l) -> In x l.
Proof. revert i. induction l as [|y l IH]; intros [|i]; cbn; auto. intros [->|H]; eauto. Qed.
Lemma remove_nth_len {A} (l k : list A) i : length l = length k -> length (remove_nth i l) = length (remove_nth i k).
Proof. revert k i. induction l as [|y l IH]; intros [|z k] [|i] H; cbn in *; try lia. f_equal. apply IH. lia. Qed.
Lemma remove_col_fine j t : fine t -> fine (remove_col j t).
Proof.
  intros [R C]. split.
  - intros r s Hr Hs. apply in_map_iff in Hr, Hs. destruct Hr as (x & <- & Hx). destruct Hs as (y & <- & Hy). apply remove_nth_len. apply R; auto.
  - apply Forall_map. eapply Forall_impl; [|exact C]. intros r Hr. unfold row_ok in *. rewrite Forall_forall in *. intros e He. apply Hr.
    eapply remove_nth_sub; eauto.
Qed.
Lemma set_nth_sub {A} (l : list A) i y x : In x (set_nth i y l) -> x = y \/ In x l.
Proof. revert i. induction l as [|z l IH]; intros [|i]; cbn; auto; intros [->|H]; auto. destruct (IH _ H); auto. Qed.
Lemma set_row_ok r j e : row_ok r -> ent_ok e -> row_ok (set_nth j e r).
Proof. unfold row_ok. rewrite !Forall_forall. intros H He x Hx. apply set_nth_sub in Hx. destruct Hx as [->|Hx]; auto. Qed.
Lemma set_cell_fine i j e t : fine t -> ent_ok e -> fine (set_cell i j e t).
Proof.
  intros [R C] He. split.
  - apply width_rectangular with (cols_len t). apply set_cell_width. apply rectangular_width. exact R.
  - unfold set_cell. destruct (nth_error t i) as [r|] eqn:E; auto. apply nth_error_In in E. unfold cells_ok in *. rewrite Forall_forall in *.
    intros x Hx. apply set_nth_sub in Hx. destruct Hx as [->|Hx]; auto. apply set_row_ok; auto.
Qed.
Lemma zip_fine j h d vs : fine (h :: d) -> Forall P vs -> fine (h :: zip_col j d vs).
Proof.
  intros [R C] F. split.
  - apply width_rectangular with (length h). intros r [<-|Hr]; auto. eapply cells_set; eauto. intros x Hx. apply R; cbn; auto.
  - inversion C; subst. constructor; auto. clear R C H1. revert vs F. induction H2 as [|r d Hr Hd IH]; intros [|v vs] F; cbn; try constructor; auto.
    + apply set_row_ok; auto. apply val_ent_ok. inversion F; auto.
    + apply IH. inversion F; auto.
Qed.
Lemma names_fine h d hs : fine (h :: d) -> fine ((map (fun eh => EObj (VStr (snd eh))) (combine h hs) ++ skipn (length hs) h) :: d).
Proof.
  intros [R C]. split.
  - apply rectangular_cons. intros x Hx. rewrite app_length, map_length, combine_length, skipn_length. rewrite (R x h); cbn; auto. lia.
  - inversion C; subst. constructor; auto. apply Forall_app. split.
    + apply Forall_map. apply Forall_forall. intros x _. apply Pstr.
    + apply Forall_forall. intros e He. unfold row_ok in H1. rewrite Forall_forall in H1. apply H1. eapply skipn_sub; eauto.
Qed.
End Fine.
