From Coq Require Import String List Bool Arith Lia NArith ZArith.
From Verif Require Import Spec.OpsSpec Model.Base Model.Value Model.TableCrate Model.RowPar Model.TableOps
  Spec.TableSpec Spec.ColSpec Proofs.ListLemmas Proofs.TableBasics Proofs.AppendProofs.
Import ListNotations.
Set Implicit Arguments.

Lemma widen_length : forall w r, length (widen w r) = w.
Proof. intros. unfold widen. now rewrite map_length, seq_length. Qed.

Lemma widen_same : forall w r, length r = w -> widen w r = r.
Proof. intros w r H. rewrite <- pad_widen by lia. now apply pad_same. Qed.

Lemma nth_error_widen : forall w r j, nth_error (widen w r) j = if j <? w then Some (nth j r ENil) else None.
Proof.
  intros. unfold widen. rewrite nth_error_map, nth_error_seq. destruct (j <? w); reflexivity.
Qed.

Lemma widen_widen : forall w w' r, length r <= w' -> w' <= w -> widen w (widen w' r) = widen w r.
Proof.
  intros w w' r H1 H2. apply nth_error_ext. intros j. rewrite !nth_error_widen.
  destruct (j <? w); auto. f_equal.
  destruct (Nat.lt_ge_cases j w').
  - apply nth_error_nth. rewrite nth_error_widen. destruct (Nat.ltb_spec j w'); [reflexivity|lia].
  - rewrite !nth_overflow; auto; [lia|]. rewrite widen_length. lia.
Qed.

Lemma max_width_app : forall a b : table, max_width (a ++ b) = Nat.max (max_width a) (max_width b).
Proof.
  induction a as [|r a IH]; intros b; cbn [app]; [reflexivity|].
  rewrite !max_width_cons, IH. lia.
Qed.

Lemma max_width_rect : forall t : table, rectangular t -> max_width t = cols_len t.
Proof.
  intros [|h d] H; [reflexivity|]. apply max_width_uniform; [|discriminate].
  apply (rectangular_width H).
Qed.

Lemma data_rect : forall t : table, rectangular t -> width_is (cols_len t) (data t).
Proof. intros [|h d] H r Hr; cbn in *; [easy|]. apply H; cbn; auto. Qed.

Lemma data_skipn : forall t : table, skipn 1 t = data t.
Proof. intros [|h d]; reflexivity. Qed.

Lemma add_rows_widen : forall (t rs : table), add_rows t rs = map (widen (max_width (t ++ rs))) (t ++ rs).
Proof.
  intros t rs. unfold add_rows, table_from. apply map_ext_in. intros r Hr. apply pad_widen. now apply max_width_ge.
Qed.

(** ** Dropping columns and rows from the end *)

Lemma remove_nth_last : forall A (l : list A) n, length l = S n -> remove_nth n l = firstn n l.
Proof.
  induction l as [|a l IH]; intros n H; cbn in H; [discriminate|]. injection H as H.
  destruct n as [|n]; cbn.
  - destruct l; [reflexivity|discriminate].
  - rewrite IH; auto.
Qed.

Lemma remove_down_gen : forall A k (n : nat) (l : list A), length l = n + k ->
  fold_left (fun l j => remove_nth j l) (rev (seq n k)) l = firstn n l.
Proof.
  induction k as [|k IH]; intros n l H.
  - cbn. rewrite Nat.add_0_r in H. subst. symmetry. apply firstn_all.
  - rewrite seq_S, rev_app_distr. cbn [rev app fold_left].
    rewrite remove_nth_last by lia.
    rewrite IH by (rewrite firstn_length; lia). rewrite firstn_firstn. f_equal. lia.
Qed.

Lemma remove_cols_down_spec : forall n p (t : table), n <= p -> width_is p t ->
  remove_cols_down n p t = map (firstn n) t.
Proof.
  intros n p t Hn HW. unfold remove_cols_down.
  assert (G : forall js (t : table), fold_left (fun t j => remove_col j t) js t =
     map (fun r => fold_left (fun l j => remove_nth j l) js r) t).
  { induction js as [|j js IH]; intros t0; cbn; [now rewrite map_id|].
    rewrite IH. unfold remove_col. rewrite map_map. reflexivity. }
  rewrite G. apply map_ext_in. intros r Hr. apply remove_down_gen. rewrite (HW r Hr). lia.
Qed.

Lemma remove_rows_down_spec : forall n p (t : table), n <= p -> length t = p ->
  remove_rows_down n p t = firstn n t.
Proof. intros n p t Hn HL. unfold remove_rows_down, remove_row. apply remove_down_gen. lia. Qed.

(** ** By rows *)

Lemma set_header_loop : forall n a hn (d : table) (next : table),
  length hn = length a + n -> (forall j, get_col next j = if j <? length hn then Some (map (fun r => nth j r ENil) next) else None) ->
  (exists dn, next = hn :: dn) ->
  fold_left (fun t j => let? t := t in
     if j <? cols_len t then
       match get_col next j with None => Panic | Some c => Ok (set_cell 0 j (nth 0 c ENil) t) end
     else Panic) (seq (length a) n) (Ok ((a ++ repeat ENil n) :: d))
  = Ok ((a ++ skipn (length a) hn) :: d).
Proof.
  induction n as [|n IH]; intros a hn d next HL HC HN.
  - cbn. rewrite app_nil_r. replace (skipn (length a) hn) with (@nil ent); [now rewrite app_nil_r|].
    symmetry. apply skipn_all2. lia.
  - cbn [seq fold_left rbind cols_len]. rewrite app_length. cbn [repeat length]. rewrite repeat_length.
    destruct (Nat.ltb_spec (length a) (length a + S n)); [|lia].
    rewrite HC. destruct (Nat.ltb_spec (length a) (length hn)); [|lia].
    destruct HN as (dn & ->). cbn [map nth set_cell nth_error set_nth].
    assert (E : set_nth (length a) (nth (length a) hn ENil) (a ++ ENil :: repeat ENil n) =
                (a ++ [nth (length a) hn ENil]) ++ repeat ENil n).
    { clear. rewrite <- app_assoc. cbn. generalize (nth (length a) hn ENil). intros x.
      induction a as [|y a IH]; cbn; auto. now f_equal. }
    rewrite E.
    replace (S (length a)) with (length (a ++ [nth (length a) hn ENil])) by (rewrite app_length; cbn; lia).
    rewrite (IH (a ++ [nth (length a) hn ENil]) hn d (hn :: dn)).
    + f_equal. f_equal. rewrite <- app_assoc. f_equal. rewrite app_length. cbn [length app].
      rewrite Nat.add_1_r. clear -H0. revert H0. generalize (length a). intros k. revert hn.
      induction k as [|k IHk]; intros [|x hn] H; cbn in *; try lia; auto. apply IHk. lia.
    + rewrite app_length. cbn. lia.
    + exact HC.
    + eauto.
Qed.

(** The sum of two tables by rows with union, as rows. *)
Theorem add_by_row_union : forall prev next : table, rectangular prev -> rectangular next ->
  match prev with
  | [] => add_table_by_row false prev next = Ok next
  | hp :: dp =>
      if (length hp <? cols_len next) && is_empty (data next)
      then add_table_by_row false prev next = Panic
      else let w := Nat.max (length hp) (cols_len next) in
           add_table_by_row false prev next =
           Ok ((hp ++ match next with [] => [] | hn :: _ => skipn (length hp) hn end) ::
               map (widen w) (dp ++ data next))
  end.
Proof.
  intros [|hp dp] next HP HN; [reflexivity|].
  unfold add_table_by_row. cbn [is_empty cols_len]. rewrite data_skipn.
  assert (HWp : width_is (length hp) (hp :: dp)) by apply (rectangular_width HP).
  pose proof (data_rect HN) as HWn.
  destruct (Nat.ltb_spec (length hp) (cols_len next)) as [L|L]; cbn [andb].
  - destruct next as [|hn dn]; [cbn in L; lia|]. cbn [cols_len data] in *.
    destruct dn as [|r dn]; cbn [is_empty].
    + rewrite add_rows_widen, app_nil_r. rewrite max_width_rect by auto. cbn [cols_len map].
      replace (length hn - length hp) with (S (length hn - length hp - 1)) by lia.
      cbn [seq fold_left rbind]. cbn [cols_len]. rewrite widen_length.
      rewrite Nat.ltb_irrefl.
      assert (forall js, fold_left (fun (t : res table) (j : nat) => let? t0 := t in
         (if j <? cols_len t0 then match get_col [hn] j with Some c => Ok (set_cell 0 j (nth 0 c ENil) t0) | None => Panic end else Panic)) js Panic = Panic) as G.
      { induction js; cbn; auto. }
      apply G.
    + rewrite add_rows_widen.
      assert (HM : max_width ((hp :: dp) ++ r :: dn) = length hn).
      { rewrite max_width_app, max_width_rect by auto. cbn [cols_len].
        rewrite (@max_width_uniform (r :: dn) (length hn)); [lia|exact HWn|discriminate]. }
      rewrite HM. cbn [app map].
      assert (E : widen (length hn) hp = hp ++ repeat ENil (length hn - length hp)).
      { rewrite <- pad_widen by lia. reflexivity. }
      rewrite E.
      rewrite (@set_header_loop (length hn - length hp) hp hn (map (widen (length hn)) (dp ++ r :: dn)) (hn :: r :: dn)).
      * replace (Nat.max (length hp) (length hn)) with (length hn) by lia. reflexivity.
      * lia.
      * intros j. reflexivity.
      * eauto.
  - rewrite add_rows_widen.
    assert (HM : max_width ((hp :: dp) ++ data next) = length hp).
    { rewrite max_width_app, max_width_rect by auto. cbn [cols_len].
      destruct next as [|hn dn]; [cbn; lia|]. cbn [data cols_len] in *. destruct dn as [|r dn]; [cbn; lia|].
      rewrite (@max_width_uniform (r :: dn) (length hn)); [lia|exact HWn|discriminate]. }
    rewrite HM. replace (Nat.max (length hp) (cols_len next)) with (length hp) by lia.
    cbn [app map]. rewrite widen_same by auto.
    replace (match next with [] => [] | hn :: _ => skipn (length hp) hn end) with (@nil ent).
    + now rewrite app_nil_r.
    + destruct next as [|hn dn]; auto. symmetry. apply skipn_all2. exact L.
Qed.

Theorem add_by_row_intersect : forall prev next : table, rectangular prev -> rectangular next ->
  add_table_by_row true prev next =
  Ok (map (firstn (Nat.min (cols_len prev) (cols_len next))) (prev ++ data next)).
Proof.
  intros prev next HP HN. unfold add_table_by_row. rewrite data_skipn, add_rows_widen. f_equal.
  set (m := Nat.min (cols_len prev) (cols_len next)).
  pose proof (data_rect HN) as HWn. pose proof (rectangular_width HP) as HWp.
  assert (HWm : forall r, In r (map (firstn m) (data next)) -> length r = m).
  { intros r Hr. apply in_map_iff in Hr. destruct Hr as (x & <- & Hx). rewrite firstn_length, (HWn x Hx). unfold m. lia. }
  assert (HM : max_width (prev ++ map (firstn m) (data next)) = cols_len prev).
  { rewrite max_width_app, max_width_rect by auto.
    assert (max_width (map (firstn m) (data next)) <= m); [|unfold m in *; lia].
    apply max_width_le. intros c Hc. rewrite (HWm c Hc). lia. }
  rewrite HM.
  assert (HW : width_is (cols_len prev) (map (widen (cols_len prev)) (prev ++ map (firstn m) (data next)))).
  { intros r Hr. apply in_map_iff in Hr. destruct Hr as (x & <- & _). apply widen_length. }
  assert (E : map (firstn m) (map (widen (cols_len prev)) (prev ++ map (firstn m) (data next))) =
              map (firstn m) (prev ++ data next)).
  { rewrite !map_app, !map_map. f_equal.
    - apply map_ext_in. intros r Hr. rewrite widen_same; auto.
    - apply map_ext_in. intros r Hr. apply nth_error_ext. intros j.
      destruct (Nat.lt_ge_cases j m).
      + rewrite !nth_error_firstn_lt by auto. rewrite nth_error_widen.
        destruct (Nat.ltb_spec j (cols_len prev)); [|unfold m in *; lia].
        assert (j < length r) by (rewrite (HWn r Hr); unfold m in *; lia).
        rewrite (@nth_error_nth_lt _ r j ENil) by auto. f_equal.
        apply nth_error_nth. rewrite nth_error_firstn_lt by auto. now apply nth_error_nth_lt.
      + rewrite !(proj2 (nth_error_None _ _)); auto; rewrite firstn_length; lia. }
  destruct (Nat.ltb_spec (cols_len next) (cols_len prev)) as [L|L].
  - rewrite remove_cols_down_spec; [|lia|exact HW].
    assert (m = cols_len next) as <- by (unfold m; lia). exact E.
  - assert (m = cols_len prev) as Em by (unfold m; lia).
    rewrite <- E. rewrite map_map. apply map_ext. intros r. rewrite Em.
    rewrite firstn_all2; auto. rewrite widen_length. lia.
Qed.

(** ** By columns *)

Lemma table_cols_length : forall t : table, length (table_cols t) = cols_len t.
Proof. intros. unfold table_cols. now rewrite map_length, seq_length. Qed.

Lemma table_cols_row : forall (t : table) i, map (fun c => nth i c ENil) (table_cols t) = widen (cols_len t) (nth i t []).
Proof.
  intros t i. unfold table_cols, widen. rewrite map_map. apply map_ext. intros j.
  destruct (Nat.lt_ge_cases i (length t)).
  - rewrite (nth_indep _ ENil ((fun r : row => nth j r ENil) [])) by (rewrite map_length; auto).
    now rewrite (map_nth (fun r : row => nth j r ENil)).
  - rewrite (nth_overflow (map _ t)) by (rewrite map_length; auto).
    rewrite (nth_overflow t) by auto. destruct j; reflexivity.
Qed.

Theorem add_by_col_union : forall prev next : table, rectangular prev -> rectangular next ->
  let n := if cols_len next =? 0 then length prev else Nat.max (length prev) (length next) in
  length (add_table_by_col false prev next) = n /\
  forall i, i < n -> nth_error (add_table_by_col false prev next) i =
    Some (widen (cols_len prev) (nth i prev []) ++ widen (cols_len next) (nth i next [])).
Proof.
  intros prev next HP HN. unfold add_table_by_col, add_cols, rows_len.
  assert (HM : Nat.max (length prev) (max_width (table_cols next)) =
     (if cols_len next =? 0 then length prev else Nat.max (length prev) (length next))).
  { destruct (Nat.eqb_spec (cols_len next) 0) as [E|E].
    - unfold table_cols. rewrite E. cbn. lia.
    - f_equal. apply max_width_uniform.
      + intros c Hc. unfold table_cols in Hc. apply in_map_iff in Hc. destruct Hc as (j & <- & _). apply map_length.
      + intros H. apply (f_equal (@length _)) in H. rewrite table_cols_length in H. cbn in H. lia. }
  rewrite HM. cbn zeta. split; [now rewrite map_length, seq_length|].
  intros i Hi. rewrite nth_error_map, nth_error_seq.
  destruct (Nat.ltb_spec i (if cols_len next =? 0 then length prev else Nat.max (length prev) (length next))); [|lia].
  cbn [option_map]. rewrite Nat.add_0_l, table_cols_row. do 2 f_equal.
  apply pad_widen.
  destruct (Nat.lt_ge_cases i (length prev)).
  - rewrite (rectangular_width HP); auto. now apply nth_In.
  - rewrite nth_overflow by auto. cbn. lia.
Qed.

Lemma firstn_col_row : forall (t : table) m i, i < m ->
  map (fun c => nth i c ENil) (map (firstn m) (table_cols t)) = widen (cols_len t) (nth i t []).
Proof.
  intros t m i Hi. rewrite <- table_cols_row. rewrite map_map. apply map_ext. intros c.
  revert m i Hi. induction c as [|x c IH]; intros [|m] [|i] H; cbn; auto; try lia. apply IH. lia.
Qed.

Theorem add_by_col_intersect : forall prev next : table, rectangular prev -> rectangular next ->
  let n := Nat.min (length prev) (length next) in
  length (add_table_by_col true prev next) = n /\
  forall i, i < n -> exists rp rn, nth_error prev i = Some rp /\ nth_error next i = Some rn /\
    nth_error (add_table_by_col true prev next) i = Some (rp ++ rn).
Proof.
  intros prev next HP HN. unfold add_table_by_col, rows_len.
  set (m := Nat.min (length prev) (length next)).
  set (cs := map (firstn m) (table_cols next)).
  assert (HM : Nat.max (length prev) (max_width cs) = length prev).
  { assert (max_width cs <= m); [|unfold m in *; lia]. apply max_width_le. intros c Hc.
    unfold cs in Hc. apply in_map_iff in Hc. destruct Hc as (x & <- & _). rewrite firstn_length. lia. }
  assert (HL : length (add_cols prev cs) = length prev).
  { unfold add_cols, rows_len. rewrite HM. now rewrite map_length, seq_length. }
  assert (HNth : forall i, i < m -> exists rp rn, nth_error prev i = Some rp /\ nth_error next i = Some rn /\
    nth_error (add_cols prev cs) i = Some (rp ++ rn)).
  { intros i Hi. exists (nth i prev []), (nth i next []).
    assert (i < length prev /\ i < length next) as [L1 L2] by (unfold m in Hi; lia).
    split; [now apply nth_error_nth_lt|]. split; [now apply nth_error_nth_lt|].
    unfold add_cols, rows_len. rewrite HM, nth_error_map, nth_error_seq.
    destruct (Nat.ltb_spec i (length prev)); [|lia]. cbn [option_map]. rewrite Nat.add_0_l.
    unfold cs. rewrite firstn_col_row by auto.
    rewrite pad_same by (apply (rectangular_width HP), nth_In; auto).
    rewrite widen_same by (apply (rectangular_width HN), nth_In; auto). reflexivity. }
  destruct (Nat.ltb_spec (length next) (length prev)) as [L|L].
  - assert (Em : length next = m) by (unfold m; lia).
    rewrite remove_rows_down_spec; [|lia|exact HL]. rewrite Em. split.
    + rewrite firstn_length, HL. lia.
    + intros i Hi. destruct (HNth i Hi) as (rp & rn & A & B & D). exists rp, rn. split; auto. split; auto.
      rewrite nth_error_firstn_lt by auto. exact D.
  - split; [rewrite HL; unfold m; lia|exact HNth].
Qed.

(** ** Chains *)

(** [+] with several arguments: the accumulator is the left operand each time. *)
Fixpoint add_chain (byrow intersect : bool) (t : table) (ts : list table) : res table :=
  match ts with
  | [] => Ok t
  | u :: ts => let? t := add_table2 byrow intersect t u in add_chain byrow intersect t ts
  end.


Theorem add_chain_row_union : forall ts (t : table), rectangular t -> t <> [] ->
  (forall u, In u ts -> rectangular u /\ data u <> []) ->
  exists h, add_chain true false t ts =
    Ok (h :: map (widen (max_cols (t :: ts))) (flat_map data (t :: ts))) /\
    length h = max_cols (t :: ts).
Proof.
  induction ts as [|u ts IH]; intros t HR Ht HU.
  - destruct t as [|h d]; [congruence|]. exists h. cbn [add_chain flat_map max_cols fold_right cols_len data].
    rewrite app_nil_r, Nat.max_0_r. split; auto. f_equal. f_equal.
    rewrite <- (map_id d) at 1. apply map_ext_in. intros r Hr. symmetry. apply widen_same.
    apply HR; cbn; auto.
  - destruct t as [|h d]; [congruence|]. destruct (HU u (or_introl eq_refl)) as [HRu Hu].
    cbn [add_chain add_table2]. pose proof (@add_by_row_union (h :: d) u HR HRu) as E. cbn iota in E. cbv zeta in E.
    assert (is_empty (data u) = false) as E0 by (destruct (data u); [congruence|reflexivity]).
    rewrite E0, andb_false_r in E. rewrite E. cbn [rbind].
    destruct u as [|hu du]; [cbn in Hu; congruence|]. cbn [cols_len data] in *.
    set (w := Nat.max (length h) (length hu)).
    set (h1 := h ++ skipn (length h) hu).
    assert (Lh : length h1 = w) by (unfold h1, w; rewrite app_length, skipn_length; lia).
    assert (HR1 : rectangular (h1 :: map (widen w) (d ++ du))).
    { apply rectangular_cons. intros r Hr. apply in_map_iff in Hr. destruct Hr as (x & <- & _). now rewrite widen_length. }
    destruct (IH (h1 :: map (widen w) (d ++ du)) HR1) as (h2 & E2 & L2); [discriminate| |].
    { intros v Hv. apply HU; cbn; auto. }
    fold w in E2. exists h2. rewrite E2.
    assert (EM : max_cols ((h1 :: map (widen w) (d ++ du)) :: ts) = max_cols ((h :: d) :: (hu :: du) :: ts)).
    { cbn [max_cols fold_right cols_len]. rewrite Lh. unfold w. lia. }
    rewrite EM in *. split; auto. f_equal. f_equal. cbn [flat_map data]. rewrite !map_app, !map_map.
    assert (forall r, In r (d ++ du) -> widen (max_cols ((h :: d) :: (hu :: du) :: ts)) (widen w r) =
              widen (max_cols ((h :: d) :: (hu :: du) :: ts)) r) as G.
    { intros r Hr. apply widen_widen.
      - apply in_app_or in Hr. unfold w. destruct Hr as [Hr|Hr].
        + rewrite (HR r h); cbn; auto; lia.
        + rewrite (HRu r hu); cbn; auto; lia.
      - cbn [max_cols fold_right cols_len]. unfold w. lia. }
    rewrite <- !app_assoc. f_equal; [|f_equal].
    + apply map_ext_in. intros r Hr. apply G. apply in_or_app; auto.
    + apply map_ext_in. intros r Hr. apply G. apply in_or_app; auto.
Qed.
