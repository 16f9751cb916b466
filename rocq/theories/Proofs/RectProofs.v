From Coq Require Import String List Bool Arith Lia NArith ZArith Permutation.
From Verif Require Import Spec.OpsSpec Model.Base Model.Value Model.TableCrate Model.RowPar Model.TableOps
  Spec.SortSpec Spec.TableSpec Spec.ColSpec Proofs.ListLemmas Proofs.TableBasics Proofs.AddTableProofs Proofs.RevProofs Spec.RunSpec Proofs.Filter2Proofs.
Import ListNotations.
Set Implicit Arguments.

Lemma set_nth_length : forall A (x : A) l i, length (set_nth i x l) = length l.
Proof. induction l; intros [|i]; cbn; auto. Qed.

Lemma name_nils_length : forall h i, length (name_nils i h) = length h.
Proof. induction h as [|[] h IH]; intros i; cbn; auto. Qed.

Lemma cells_set : forall w (t : table) j vs, width_is w t -> width_is w (zip_col j t vs).
Proof.
  intros w t. induction t as [|r t IH]; intros j vs HW; cbn; [destruct vs; easy|].
  destruct vs as [|v vs]; [exact HW|]. intros x [<-|Hx].
  - rewrite set_nth_length. apply HW; cbn; auto.
  - eapply IH; eauto. intros y Hy. apply HW; cbn; auto.
Qed.

Lemma set_cell_width : forall w i j e (t : table), width_is w t -> width_is w (set_cell i j e t).
Proof.
  intros w i j e t HW. unfold set_cell. destruct (nth_error t i) as [r|] eqn:E; auto.
  assert (length r = w) by (apply HW; eapply nth_error_In; eauto).
  assert (length (set_nth j e r) = w) as L by now rewrite set_nth_length.
  clear E H. revert i. induction t as [|x t IH]; intros [|i]; cbn; try easy.
  - intros y [<-|Hy]; auto. apply HW; cbn; auto.
  - intros y [<-|Hy]; [apply HW; cbn; auto|]. eapply IH; eauto. intros z Hz; apply HW; cbn; auto.
Qed.

Lemma add_rows_rect : forall t rs, rectangular (add_rows t rs).
Proof. intros. apply table_from_rectangular. Qed.

Lemma add_cols_rect : forall (t : table) cs, rectangular t -> rectangular (add_cols t cs).
Proof.
  intros t cs HR. apply (@width_rectangular (cols_len t + length cs)).
  intros r Hr. unfold add_cols in Hr. apply in_map_iff in Hr. destruct Hr as (i & <- & _).
  rewrite app_length, map_length. f_equal. apply pad_length.
  destruct (Nat.lt_ge_cases i (length t)).
  - rewrite (rectangular_width HR); auto. now apply nth_In.
  - rewrite nth_overflow by auto. cbn. lia.
Qed.

Lemma rect_nil : rectangular (@nil row).
Proof. intros r s []. Qed.

Lemma take_rect : forall owned v t t', rectangular t -> take_table owned v t = Ok t' -> rectangular t'.
Proof.
  intros owned v t t' HR H. unfold take_table in H. destruct (cnv_num_to_usize v) as [n|e|]; cbn in H; try discriminate.
  destruct owned; injection H as <-.
  - apply (@rectangular_sub _ _ HR). intros r. apply retain_from_in.
  - apply add_rows_rect.
Qed.

Lemma skip_rect : forall checked owned v t t', rectangular t -> skip_table checked owned v t = Ok t' -> rectangular t'.
Proof.
  intros checked owned v t t' HR H. unfold skip_table in H. destruct (cnv_num_to_usize v) as [n|e|]; cbn in H; try discriminate.
  destruct owned; cbn in H.
  - injection H as <-. apply (@rectangular_sub _ _ HR). intros r. apply retain_from_in.
  - destruct (usize_succ checked n); cbn in H; try discriminate. injection H as <-. apply add_rows_rect.
Qed.

Lemma rev_rect : forall cols t, rectangular t -> rectangular (rev_table cols t).
Proof.
  intros cols t HR. unfold rev_table. destruct cols.
  - unfold reverse_cols. apply (@width_rectangular (cols_len t)). intros r Hr. apply in_map_iff in Hr.
    destruct Hr as (x & <- & Hx). rewrite rev_length. now apply rectangular_width.
  - destruct t as [|h d]; auto. apply (@rectangular_sub _ _ HR).
    intros r [<-|Hr]; cbn; auto. right. now apply in_rev.
Qed.

Ltac inv_ok H := repeat match type of H with
  | rbind ?r _ = Ok _ => let E := fresh "E" in let l := fresh "l" in destruct r as [l| |] eqn:E; cbn [rbind] in H; try discriminate
  end.

Lemma dedup_rect : forall names t t', dedup_table names t = Ok t' -> rectangular t'.
Proof.
  intros names t t' H. unfold dedup_table in H. inv_ok H. injection H as <-. apply table_from_rectangular.
Qed.

Lemma retain_keep_rect : forall owned t keep t', rectangular t -> retain_keep_rows owned t keep = Ok t' -> rectangular t'.
Proof.
  intros owned t keep t' HR H. unfold retain_keep_rows in H.
  destruct (forallb (fun b => b) keep); [now injection H as <-|].
  destruct (length keep <? rows_len t); [discriminate|].
  destruct owned; injection H as <-; [|apply table_from_rectangular].
  apply (@rectangular_sub _ _ HR). intros r. apply retain_from_in.
Qed.

Lemma filter_rect : forall C ev (init : C) sched owned t t', rectangular t ->
  filter_table ev init sched owned t = Ok t' -> rectangular t'.
Proof. intros C ev init sched owned t t' HR H. unfold filter_table in H. inv_ok H. eapply retain_keep_rect; eauto. Qed.

Lemma filter_col_rect : forall name exp pred sched owned t t', rectangular t ->
  filter_table_col name exp pred sched owned t = Ok t' -> rectangular t'.
Proof. intros name exp pred sched owned t t' HR H. unfold filter_table_col in H. inv_ok H. eapply retain_keep_rect; eauto. Qed.

Lemma filter_cols_rect : forall pred t t', rectangular t -> filter_cols pred t = Ok t' -> rectangular t'.
Proof.
  intros pred t t' HR H. pose proof (filter_cols_outcome pred HR) as K. rewrite H in K.
  destruct K as (keep & HL & _ & ->).
  apply (@width_rectangular (length (marked keep (repeat tt (cols_len t))))).
  intros r Hr. apply in_map_iff in Hr. destruct Hr as (x & <- & Hx).
  pose proof (@rectangular_width _ HR x Hx) as L. clear -L HL. revert x L HL. generalize (cols_len t). intros n. revert n.
  induction keep as [|b keep IH]; intros n x L HL; cbn; auto.
  destruct x as [|e x]; cbn in *; subst n; cbn; [now destruct b|].
  destruct b; cbn; [f_equal|]; apply IH; cbn in HL; lia.
Qed.

Lemma append_rect : forall C cols (init : C) scheds order t t', rectangular t ->
  append_table cols init scheds order t = Ok t' -> rectangular t'.
Proof. intros C cols init scheds order t t' HR H. unfold append_table in H. inv_ok H. injection H as <-. now apply add_cols_rect. Qed.

Lemma append_row_rect : forall vals t t', append_row vals t = Ok t' -> rectangular t'.
Proof.
  intros vals t t' H. unfold append_row in H. inv_ok H.
  pose proof (add_rows_rect t [map ent_of_val l]) as HR. unfold add_row in H.
  destruct (add_rows t [map ent_of_val l]) as [|h d]; injection H as <-; [apply rect_nil|].
  apply rectangular_cons. intros r Hr. rewrite name_nils_length. apply HR; cbn; auto.
Qed.

Lemma map_rect : forall C tf (init : C) sched force in_ty name t t', rectangular t ->
  map_table tf init sched force in_ty name t = Ok t' -> rectangular t'.
Proof.
  intros C tf init sched force in_ty name t t' HR H. unfold map_table in H. inv_ok H.
  destruct t as [|h d]; [now injection H as <-|]. destruct l1 as [|v vs]; [now injection H as <-|].
  injection H as <-. apply (@width_rectangular (length h)).
  intros r [<-|Hr]; auto. eapply cells_set; eauto. intros x Hx. apply HR; cbn; auto.
Qed.

Lemma build_rect : forall K (m : list (K * table)) f, rectangular (build_table_from_map m f).
Proof. intros. apply add_rows_rect. Qed.

Lemma grp_rect : forall fmt names t t', grp_table fmt names t = Ok t' -> rectangular t'.
Proof.
  intros fmt names t t' H. unfold grp_table in H. destruct t; [discriminate|]. inv_ok H. injection H as <-. apply build_rect.
Qed.

Lemma grpby_rect : forall C ev (init : C) sched cmp t t', grpby_table ev init sched cmp t = Ok t' -> rectangular t'.
Proof.
  intros C ev init sched cmp t t' H. unfold grpby_table in H. inv_ok H.
  destruct t; [|destruct l]; injection H as <-; apply build_rect.
Qed.

Lemma btree_in : forall K cmp (k : K) (new : table) upd m x,
  In x (btree_upd cmp k new upd m) -> In x m \/ (exists k', x = (k', upd new)) \/ (exists y, In y m /\ x = (fst y, upd (snd y))).
Proof.
  intros K cmp k new upd. induction m as [|[k0 v0] m IH]; cbn; intros x Hx.
  - destruct Hx as [<-|[]]. right. left. eauto.
  - destruct (cmp k k0).
    + destruct Hx as [<-|Hx]; auto. right. right. exists (k0, v0). auto.
    + destruct Hx as [<-|[<-|Hx]]; auto. right. left. eauto.
    + destruct Hx as [<-|Hx]; auto. destruct (IH x Hx) as [|[|(y & Hy & ->)]]; auto.
      right. right. eauto.
Qed.

(** Every table held in the value column of a grouping is rectangular. *)
Lemma build_inner : forall K (m : list (K * table)) f i u,
  (forall x, In x m -> rectangular (snd x)) ->
  cell (build_table_from_map m f) i 1 = Some (EObj (VTab u)) -> rectangular u.
Proof.
  intros K m f i u Hm H. unfold build_table_from_map in H.
  rewrite add_rows_widen in H.
  set (rs := map (fun kv => [ent_of_val (f (fst kv)); ent_of_val (VTab (snd kv))]) m) in *.
  assert (E : add_row [] [o (lit "key"); o (lit "value")] = [[o (lit "key"); o (lit "value")]]) by reflexivity.
  rewrite E in H. unfold cell in H. rewrite nth_error_map in H.
  set (w := max_width ([[o (lit "key"); o (lit "value")]] ++ rs)) in *.
  destruct (nth_error ([[o (lit "key"); o (lit "value")]] ++ rs) i) as [r|] eqn:Er; cbn [option_map] in H; [|discriminate].
  rewrite nth_error_widen in H. destruct (1 <? w); [|discriminate].
  apply nth_error_In in Er. destruct Er as [<-|Er]; [discriminate|].
  unfold rs in Er. apply in_map_iff in Er. destruct Er as (x & <- & Hx).
  cbn in H. assert (snd x = u) as <- by congruence. auto.
Qed.

Lemma grp_inner_rect : forall fmt names t t' i u, grp_table fmt names t = Ok t' ->
  cell t' i 1 = Some (EObj (VTab u)) -> rectangular u.
Proof.
  intros fmt names t t' i u H. unfold grp_table in H. destruct t as [|h d]; [discriminate|]. inv_ok H. injection H as <-.
  apply build_inner.
  assert (G : forall rows m m', (forall x, In x m -> rectangular (snd x)) -> grp_loop fmt l h rows m = Ok m' ->
     forall x, In x m' -> rectangular (snd x)).
  { induction rows as [|r rows IH]; intros m m' Hm Hl; cbn [grp_loop] in Hl; [now injection Hl as <-|].
    inv_ok Hl. eapply IH; [|exact Hl]. intros x Hx.
    apply btree_in in Hx. destruct Hx as [Hx|[(k & ->)|(y & Hy & ->)]]; auto; apply add_rows_rect. }
  eapply G; [|exact E0]. intros x [].
Qed.

Lemma grpby_inner_rect : forall C ev (init : C) sched cmp t t' i u, grpby_table ev init sched cmp t = Ok t' ->
  cell t' i 1 = Some (EObj (VTab u)) -> rectangular u.
Proof.
  intros C ev init sched cmp t t' i u H. unfold grpby_table in H. inv_ok H.
  assert (G : forall h rows keys m, (forall x, In x m -> rectangular (snd x)) ->
     forall x, In x (grpby_loop cmp h rows keys m) -> rectangular (snd x)).
  { induction rows as [|r rows IH]; intros keys m Hm; cbn [grpby_loop]; auto.
    destruct keys as [|k keys]; auto. apply IH. intros x Hx.
    apply btree_in in Hx. destruct Hx as [Hx|[(k' & ->)|(y & Hy & ->)]]; auto; apply add_rows_rect. }
  destruct t as [|h d]; [injection H as <-; apply build_inner; intros x []|].
  destruct l as [|v vs]; injection H as <-; apply build_inner; [intros x []|].
  apply G. intros x [].
Qed.

Lemma pick_rect : forall add trail names t t', pick_table add trail names t = Ok t' -> rectangular t'.
Proof. intros add trail names t t' H. unfold pick_table in H. inv_ok H. injection H as <-. apply table_from_rectangular. Qed.

Lemma ren_loop_width : forall w idxs names t t', width_is w t -> ren_loop idxs names t = Ok t' -> width_is w t'.
Proof.
  induction idxs as [|i idxs IH]; intros names t t' HW H; cbn in H; [now injection H as <-|].
  destruct names as [|n names]; [now injection H as <-|].
  destruct (i <? N.of_nat (cols_len t))%N; [|discriminate]. inv_ok H.
  eapply IH; [|exact H]. now apply set_cell_width.
Qed.

Lemma ren_rect : forall bindings t t', rectangular t -> ren_table bindings t = Ok t' -> rectangular t'.
Proof.
  intros bindings t t' HR H. unfold ren_table in H. inv_ok H.
  eapply width_rectangular, ren_loop_width; [|exact H]. now apply rectangular_width.
Qed.

Lemma ren_with_rect : forall rowidx inty expr t t', rectangular t -> ren_with_table rowidx inty expr t = Ok t' -> rectangular t'.
Proof.
  intros rowidx inty expr t t' HR H. unfold ren_with_table in H. inv_ok H.
  destruct t as [|h d]; [discriminate|].
  destruct (_ <? _)%N; [|discriminate]. destruct (nth_error (h :: d) _) as [r|]; [|discriminate].
  inv_ok H. injection H as <-. apply rectangular_cons. intros x Hx.
  rewrite app_length, map_length, combine_length, skipn_length. rewrite (HR x h); cbn; auto. lia.
Qed.

Lemma sort_rect : forall so names t t', sort_contract so -> rectangular t -> sort_table so names t = Ok t' -> rectangular t'.
Proof.
  intros so names t t' HS HR H. unfold sort_table in H. inv_ok H. injection H as <-. clear E.
  revert t HR. induction l as [|c l IH]; intros t HR; cbn; auto. apply IH.
  destruct t as [|h d]; auto. cbn [table_sort]. apply (@rectangular_sub _ _ HR).
  intros r [<-|Hr]; cbn; auto. right.
  destruct (HS row (fun a b => cmp_table_entries (nth c a ENil) (nth c b ENil)) d) as [HP _].
  eapply Permutation_in; [apply Permutation_sym, HP|exact Hr].
Qed.

Lemma sortby_rect : forall C so ev (init : C) sched cmp owned t t',
  sortby_table so ev init sched cmp owned t = Ok t' -> rectangular t'.
Proof.
  intros C so ev init sched cmp owned t t' H. unfold sortby_table, reorder_table in H. inv_ok H.
  injection H as <-. apply table_from_rectangular.
Qed.

Lemma add_rect : forall byrow intersect p n t', rectangular p -> rectangular n ->
  add_table2 byrow intersect p n = Ok t' -> rectangular t'.
Proof.
  intros byrow intersect p n t' HP HN H. unfold add_table2 in H. destruct byrow; [destruct intersect|].
  - rewrite add_by_row_intersect in H by auto. injection H as <-.
    apply (@width_rectangular (Nat.min (cols_len p) (cols_len n))). intros r Hr. apply in_map_iff in Hr.
    destruct Hr as (x & <- & Hx). rewrite firstn_length. apply in_app_or in Hx. destruct Hx as [Hx|Hx].
    + rewrite (@rectangular_width _ HP x Hx). lia.
    + rewrite (@data_rect _ HN x Hx). lia.
  - pose proof (@add_by_row_union p n HP HN) as K. destruct p as [|hp dp]; [rewrite H in K; now injection K as ->|]. cbv zeta in K.
    destruct ((length hp <? cols_len n) && is_empty (data n)); [congruence|].
    rewrite H in K. injection K as ->. apply rectangular_cons. intros r Hr. apply in_map_iff in Hr.
    destruct Hr as (x & <- & _). rewrite widen_length, app_length.
    destruct n as [|hn dn]; cbn; [lia|]. rewrite skipn_length. lia.
  - injection H as <-. apply (@width_rectangular (cols_len p + cols_len n)).
    intros r Hr. apply In_nth_error in Hr. destruct Hr as (i & Hi). destruct intersect.
    + destruct (@add_by_col_intersect p n HP HN) as [L K].
      assert (i < length (add_table_by_col true p n)) by (apply nth_error_Some; congruence).
      destruct (K i ltac:(lia)) as (rp & rn & A & B & D). assert (r = rp ++ rn) as -> by congruence.
      rewrite app_length. f_equal; eapply rectangular_width; eauto; eapply nth_error_In; eauto.
    + destruct (@add_by_col_union p n HP HN) as [L K].
      assert (i < length (add_table_by_col false p n)) by (apply nth_error_Some; congruence).
      rewrite K in Hi by (rewrite <- L; auto). assert (r = widen (cols_len p) (nth i p []) ++ widen (cols_len n) (nth i n [])) as -> by congruence.
      now rewrite app_length, !widen_length.
Qed.

Lemma range_rect : forall a b t, range a b = Ok t -> rectangular t.
Proof. intros a b t H. unfold range in H. inv_ok H. injection H as <-. apply table_from_rectangular. Qed.

Lemma table_ctor_rect : forall names t, table_ctor names = Ok t -> rectangular t.
Proof.
  intros names t H. unfold table_ctor in H. inv_ok H. injection H as <-. clear E.
  assert (G : forall vs t, rectangular t -> rectangular (fold_left (fun t v => add_col t [ent_of_val v]) vs t)).
  { induction vs as [|v vs IH]; intros t HR; cbn; auto. apply IH. now apply add_cols_rect. }
  apply G, rect_nil.
Qed.

(** Tables that exist after any sequence of table commands. *)
Inductive built : table -> Prop :=
| b_ctor names t : table_ctor names = Ok t -> built t
| b_range a b t : range a b = Ok t -> built t
| b_take owned v t t' : built t -> take_table owned v t = Ok t' -> built t'
| b_skip checked owned v t t' : built t -> skip_table checked owned v t = Ok t' -> built t'
| b_rev cols t : built t -> built (rev_table cols t)
| b_dedup names t t' : built t -> dedup_table names t = Ok t' -> built t'
| b_filter C ev (init : C) sched owned t t' : built t -> filter_table ev init sched owned t = Ok t' -> built t'
| b_filter_col name exp pred sched owned t t' : built t ->
    filter_table_col name exp pred sched owned t = Ok t' -> built t'
| b_filter_cols pred t t' : built t -> filter_cols pred t = Ok t' -> built t'
| b_append C cols (init : C) scheds order t t' : built t -> append_table cols init scheds order t = Ok t' -> built t'
| b_append_row vals t t' : built t -> append_row vals t = Ok t' -> built t'
| b_map C tf (init : C) sched force in_ty name t t' : built t ->
    map_table tf init sched force in_ty name t = Ok t' -> built t'
| b_grp fmt names t t' : built t -> grp_table fmt names t = Ok t' -> built t'
| b_grp_cell fmt names t t' i u : built t -> grp_table fmt names t = Ok t' ->
    cell t' i 1 = Some (EObj (VTab u)) -> built u
| b_grpby C ev (init : C) sched cmp t t' : built t -> grpby_table ev init sched cmp t = Ok t' -> built t'
| b_grpby_cell C ev (init : C) sched cmp t t' i u : built t -> grpby_table ev init sched cmp t = Ok t' ->
    cell t' i 1 = Some (EObj (VTab u)) -> built u
| b_pick add trail names t t' : built t -> pick_table add trail names t = Ok t' -> built t'
| b_ren bindings t t' : built t -> ren_table bindings t = Ok t' -> built t'
| b_ren_with rowidx inty expr t t' : built t -> ren_with_table rowidx inty expr t = Ok t' -> built t'
| b_sort so names t t' : sort_contract so -> built t -> sort_table so names t = Ok t' -> built t'
| b_sortby C so ev (init : C) sched cmp owned t t' : built t ->
    sortby_table so ev init sched cmp owned t = Ok t' -> built t'
| b_add byrow intersect p n t' : built p -> built n -> add_table2 byrow intersect p n = Ok t' -> built t'.

Theorem built_rectangular : forall t, built t -> rectangular t.
Proof.
  induction 1.
  - eapply table_ctor_rect; eassumption.
  - eapply range_rect; eassumption.
  - eapply take_rect; eassumption.
  - eapply skip_rect; eassumption.
  - eapply rev_rect; eassumption.
  - eapply dedup_rect; eassumption.
  - eapply filter_rect; eassumption.
  - eapply filter_col_rect; eassumption.
  - eapply filter_cols_rect; eassumption.
  - eapply append_rect; eassumption.
  - eapply append_row_rect; eassumption.
  - eapply map_rect; eassumption.
  - eapply grp_rect; eassumption.
  - eapply grp_inner_rect; eassumption.
  - eapply grpby_rect; eassumption.
  - eapply grpby_inner_rect; eassumption.
  - eapply pick_rect; eassumption.
  - eapply ren_rect; eassumption.
  - eapply ren_with_rect; eassumption.
  - eapply sort_rect; eassumption.
  - eapply sortby_rect; eassumption.
  - match goal with HA : add_table2 _ _ _ _ = _ |- _ => refine (add_rect _ _ _ _ HA) end; assumption.
Qed.
