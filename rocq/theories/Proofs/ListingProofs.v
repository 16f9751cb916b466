(** Listing directories. *)
From Coq Require Import String List ZArith NArith Bool Arith Lia Permutation Sorted.
From Verif Require Import Model.Base Model.Value Model.TableCrate Model.Listing Spec.SortSpec Spec.ListingSpec Proofs.SortProofs.
Import ListNotations.

Lemma after_dot_some : forall s a b, after_dot s = Some (a, b) <-> s = a ++ [46%N] ++ b /\ ~ In 46%N b.
Proof.
  induction s as [|c s IH]; intros a b; cbn.
  - split; [discriminate|]. intros (E & _). destruct a; discriminate.
  - destruct (after_dot s) as [[a' b']|] eqn:A.
    + destruct (proj1 (IH a' b') eq_refl) as (E & N). split.
      * intros H. injection H as <- <-. split; [cbn; rewrite E; reflexivity|exact N].
      * intros (E2 & N2). destruct a as [|d a]; cbn in E2.
        -- injection E2 as _ <-. exfalso. apply N2. rewrite E. apply in_or_app. right. left. reflexivity.
        -- injection E2 as <- E2. pose proof (proj2 (IH a b) (conj E2 N2)) as X. injection X as <- <-. reflexivity.
    + destruct (N.eqb_spec c 46) as [->|N0]; split.
      * intros H. injection H as <- <-. split; [reflexivity|]. intros I. apply in_split in I as (x & y & E).
        (* the last dot *)
        clear IH. revert A E. clear. revert x y. induction s as [|c s IH]; intros x y A E; [destruct x; discriminate|]. cbn in A.
        destruct (after_dot s) as [[? ?]|] eqn:B; [discriminate|]. destruct (N.eqb_spec c 46) as [->|N]; [discriminate|].
        destruct x as [|d x]; cbn in E; [injection E as -> _; contradiction|]. injection E as -> E. exact (IH x y eq_refl E).
      * intros (E & N). destruct a as [|d a]; cbn in E; injection E as ?; subst; [reflexivity|].
        exfalso. pose proof (proj2 (IH a b) (conj eq_refl N)) as X. discriminate.
      * discriminate.
      * intros (E & N). destruct a as [|d a]; cbn in E; injection E as ?; subst; [contradiction|].
        exfalso. pose proof (proj2 (IH a b) (conj eq_refl N)) as X. discriminate.
Qed.
Lemma extension_iff : forall s e, extension s = Some e <-> ends_in s e.
Proof.
  intros s e. unfold extension, ends_in. destruct (str_eqb_spec s [46; 46]%N) as [->|N].
  - split; [discriminate|]. intros (H & _). contradiction.
  - split.
    + intros H. split; [exact N|]. destruct (after_dot s) as [[[|c a] b]|] eqn:A; try discriminate. injection H as <-.
      apply after_dot_some in A as (E & M). exists (c :: a). split; [exact E|split; [discriminate|exact M]].
    + intros (_ & x & E & Nx & M). rewrite (proj2 (after_dot_some s x e) (conj E M)). destruct x; [contradiction|reflexivity].
Qed.
Lemma suffix_ok : forall n, suffix n (match n with inl x => extension x | inr x => x end).
Proof.
  intros [n|x]; [|apply suffix_raw]. destruct (extension n) as [e|] eqn:E.
  - apply suffix_some. apply extension_iff. exact E.
  - apply suffix_none. intros e H. apply extension_iff in H. congruence.
Qed.
Lemma or_nil_ok : forall x, cell (or_nil x) x.
Proof. intros [x|]; reflexivity. Qed.
Lemma item_ok : forall d, listed d (pad 5 (item_row d)).
Proof.
  intros d. unfold item_row. assert (N : named d (match d_name d with inl x => x | inr _ => [] end)).
  { unfold named. destruct (d_name d) as [x|y]; [left; reflexivity|right; split; [eexists|]; reflexivity]. }
  destruct (d_meta d) as [m|] eqn:M.
  - cbn. destruct (m_dir m) eqn:D; [|destruct (m_file m) eqn:F].
    + eapply listed_full; [exact N|exact M|apply kind_dir; exact D|reflexivity|apply suffix_ok|apply or_nil_ok|apply or_nil_ok|reflexivity].
    + eapply listed_full; [exact N|exact M|apply kind_file; assumption|reflexivity|apply suffix_ok|apply or_nil_ok|apply or_nil_ok|reflexivity].
    + eapply listed_full; [exact N|exact M|apply kind_other; assumption|reflexivity|apply suffix_ok|apply or_nil_ok|apply or_nil_ok|reflexivity].
  - cbn. apply listed_name; [exact N|exact M].
Qed.
Lemma item_len : forall d, length (item_row d) <= 5.
Proof. intros d. unfold item_row. destruct (d_meta d); cbn; lia. Qed.
Lemma pad_same : forall w r, length r = w -> pad w r = r.
Proof. intros w r <-. unfold pad. rewrite Nat.sub_diag. apply app_nil_r. Qed.
Lemma pad_length : forall w r, length r <= w -> length (pad w r) = w.
Proof. intros w r L. unfold pad. rewrite app_length, repeat_length. lia. Qed.
Lemma max_five : forall rs r, Forall (fun r => length r = 5) rs -> rs <> [] -> length r <= 5 -> max_width (rs ++ [r]) = 5.
Proof.
  intros rs r F N L. induction F as [|q rs Q F IH]; [contradiction|]. cbn. destruct rs as [|p rs]; [cbn; lia|]. cbn in *. rewrite IH by discriminate. lia.
Qed.
Lemma add_five : forall rs r, Forall (fun r => length r = 5) rs -> rs <> [] -> length r <= 5 -> add_row rs r = rs ++ [pad 5 r].
Proof.
  intros rs r F N L. unfold add_row, add_rows, table_from. rewrite max_five by assumption. rewrite map_app. cbn. f_equal.
  clear N. induction F as [|q rs Q F IH]; [reflexivity|]. cbn. rewrite (pad_same 5 q Q), IH. reflexivity.
Qed.
Lemma rows_ok : forall items rs, Forall (fun r => length r = 5) rs -> rs <> [] ->
  fold_left (fun t i => match i with Some d => add_row t (item_row d) | None => t end) items rs = rs ++ map (fun d => pad 5 (item_row d)) (present items).
Proof.
  induction items as [|i items IH]; intros rs F N; cbn [fold_left present map]; [symmetry; apply app_nil_r|]. destruct i as [d|]; [|apply IH; assumption].
  rewrite add_five by (try assumption; apply item_len). rewrite IH.
  - rewrite <- app_assoc. reflexivity.
  - apply Forall_app. split; [exact F|]. constructor; [apply pad_length; apply item_len|constructor].
  - destruct rs; discriminate.
Qed.
Lemma by_name_order : forall ds, total_preorder_on (fun r => In r (map (fun d => pad 5 (item_row d)) ds)) by_name.
Proof.
  intros ds. assert (X : forall r, In r (map (fun d => pad 5 (item_row d)) ds) -> exists x l, r = EObj (VStr x) :: l).
  { intros r I. apply in_map_iff in I as (d & <- & _). pose proof (item_ok d) as H. inversion H; subst; eauto. }
  split; [|split].
  - intros a I. destruct (X a I) as (x & l & ->). cbn. apply str_cmp_refl.
  - intros a b I J. destruct (X a I) as (x & l & ->), (X b J) as (y & k & ->). cbn. apply str_cmp_antisym.
  - intros a b c I J K. destruct (X a I) as (x & l & ->), (X b J) as (y & k & ->), (X c K) as (z & m & ->). cbn. apply str_cmp_trans.
Qed.
Lemma name_same : forall a b, name_cmp (nth 0 a ENil) (nth 0 b ENil) = by_name a b.
Proof. intros [|x a] [|y b]; cbn; try reflexivity; destruct x as [|n|v]; try reflexivity; destruct v; try reflexivity; destruct y as [|m|w]; try reflexivity; destruct w; reflexivity. Qed.
Lemma listed_all : forall ds, Forall2 listed ds (map (fun d => pad 5 (item_row d)) ds).
Proof. induction ds as [|d ds IH]; [constructor|]. constructor; [apply item_ok|exact IH]. Qed.
Lemma listing_ok : forall so, sort_contract so -> forall items,
  match make_dir_table so items with
  | Ok t => exists l rows out, items = Some l /\ t = map (fun x => EObj (VStr (lit x))) ["name"; "type"; "size"; "ext"; "modified"]%string :: out /\
      Forall2 listed (present l) rows /\ is_stable_sort by_name rows out
  | Err _ => items = None
  | Panic => False
  end.
Proof.
  intros so HS [l|]; cbn [make_dir_table]; [|reflexivity].
  change (table_from [dir_header]) with [dir_header]. rewrite rows_ok; [|repeat constructor|discriminate].
  set (rows := map (fun d => pad 5 (item_row d)) (present l)). cbn [app table_sort].
  exists l, rows, (fst (so row by_name rows)). split; [reflexivity|]. destruct (HS row by_name rows) as (_ & C & _ & L).
  rewrite (L (fun a b => name_cmp (nth 0 a ENil) (nth 0 b ENil))) by (intros; apply name_same).
  split; [reflexivity|]. split; [apply listed_all|]. apply C. apply by_name_order.
Qed.
Lemma named_fun : forall d x y, named d x -> named d y -> x = y.
Proof. intros d x y [A|((a & A) & ->)] [B|((b & B) & ->)]; congruence. Qed.
Lemma ends_fun : forall n e f, ends_in n e -> ends_in n f -> e = f.
Proof. intros n e f A B. apply extension_iff in A, B. congruence. Qed.
Lemma suffix_fun : forall n x y, suffix n x -> suffix n y -> x = y.
Proof.
  intros n x y A B. destruct A as [n e H|n H|x]; inversion B as [m f K|m K|]; subst; try reflexivity.
  - f_equal. exact (ends_fun _ _ _ H K).
  - destruct (K _ H).
  - destruct (H _ K).
Qed.
Lemma kind_fun : forall m x y, kind m x -> kind m y -> x = y.
Proof. intros m x y A B. destruct A, B; congruence. Qed.
Lemma cell_fun : forall a b x, cell a x -> cell b x -> a = b.
Proof. intros a b [x|]; cbn; congruence. Qed.
Lemma listed_fun : forall d r s, listed d r -> listed d s -> r = s.
Proof.
  intros d r s A B. destruct A as [d m x k q a b c e N M K A S B' C E|d x N M]; inversion B as [d2 m2 x2 k2 q2 a2 b2 c2 e2 N2 M2 K2 A2 S2 B2 C2 E2|d2 x2 N2 M2]; subst; try congruence.
  - rewrite M in M2. injection M2 as <-. rewrite (kind_fun _ _ _ K2 K) in A2. rewrite (suffix_fun _ _ _ S2 S) in B2.
    rewrite (named_fun _ _ _ N N2), (cell_fun _ _ _ A A2), (cell_fun _ _ _ B' B2), (cell_fun _ _ _ C C2). reflexivity.
  - rewrite (named_fun _ _ _ N N2). reflexivity.
Qed.
Lemma max_one : forall r : row, r <> [] -> max_width (map (fun x => [x]) r) = 1.
Proof. induction r as [|x r IH]; intros N; [contradiction|]. destruct r as [|y r]; [reflexivity|]. cbn in *. rewrite IH by discriminate. reflexivity. Qed.
Lemma ls_table_ok : forall t, match t with
  | [] => exists e, ls_table t = Err e
  | r :: _ => ls_table t = Ok ([EObj (VStr (lit "header"))] :: map (fun x => [x]) r)
  end.
Proof.
  intros [|r t]; [eexists; reflexivity|]. change (ls_table (r :: t)) with (Ok (table_from (map (fun x : ent => [x]) (o (lit "header") :: r)))). f_equal.
  unfold table_from. rewrite max_one by (intros X; discriminate X). rewrite map_map. reflexivity.
Qed.
