From Coq Require Import String List Permutation Bool Arith Lia NArith ZArith.
From Verif Require Import Spec.OpsSpec Model.Base Model.Value Model.TableCrate Model.RowPar Model.TableOps
  Spec.TableSpec Spec.ParSpec Spec.ColSpec
  Proofs.ListLemmas Proofs.TableBasics Proofs.ColLemmas Proofs.RowParProofs.
Import ListNotations.
Set Implicit Arguments.

(** ** append *)

Lemma Some_eq : forall A (a b : A), Some a = Some b -> a = b.
Proof. congruence. Qed.

Lemma gather_spec : forall A (order : list nat) (rs : list (res A)),
  Permutation order (seq 0 (length rs)) ->
  match gather order rs with
  | Ok l => map Ok l = rs
  | Err e => In (Err e) rs /\ ~ In Panic rs
  | Panic => In Panic rs
  end.
Proof.
  intros A order rs HP. unfold gather.
  destruct (existsb _ rs) eqn:EX.
  - apply existsb_exists in EX. destruct EX as (r & Hr & Er). destruct r; try discriminate. exact Hr.
  - assert (NP : ~ In Panic rs).
    { intros H. assert (existsb (fun r : res A => match r with Panic => true | _ => false end) rs = true).
      { apply existsb_exists. exists Panic. auto. } congruence. }
    assert (G : forall order e0,
      match fold_left (fun e k => match nth_error rs k with Some (Err x) => Some x | _ => e end) order e0 with
      | Some e => e0 = Some e \/ In (Err e) rs
      | None => e0 = None /\ forall k e, In k order -> nth_error rs k <> Some (Err e)
      end).
    { clear. induction order as [|k order IH]; intros e0; cbn.
      - destruct e0; [auto|split; auto].
      - specialize (IH (match nth_error rs k with Some (Err x) => Some x | _ => e0 end)).
        destruct (fold_left _ order _) as [e|].
        + destruct IH as [IH|IH]; auto.
          destruct (nth_error rs k) as [[|x|]|] eqn:Ek; auto.
          injection IH as ->. right. eapply nth_error_In; eauto.
        + destruct IH as [IH1 IH2]. destruct (nth_error rs k) as [[|x|]|] eqn:Ek; try discriminate;
            (split; [auto|]; intros k' e' [<-|Hk]; [congruence|eauto]). }
    specialize (G order None). destruct (fold_left _ order None) as [e|].
    + destruct G as [G|G]; [discriminate|]. auto.
    + destruct G as [_ G].
      assert (forall r, In r rs -> exists a, r = Ok a) as HOK.
      { intros r Hr. destruct r as [a|e|]; eauto; [|contradiction].
        exfalso. apply In_nth_error in Hr. destruct Hr as (k & Hk). eapply G; [|exact Hk].
        eapply Permutation_in; [symmetry; exact HP|]. apply in_seq. split; [lia|].
        apply nth_error_Some. congruence. }
      clear -HOK. induction rs as [|r rs IH]; cbn; [reflexivity|].
      destruct (HOK r) as (a & ->); [cbn; auto|]. cbn.
      assert (forall r, In r rs -> exists a, r = Ok a) as H by (intros; apply HOK; cbn; auto).
      specialize (IH H). destruct (rmapM (fun r : res A => r) rs) as [l|e|] eqn:E; cbn.
      * f_equal. exact IH.
      * exfalso. clear -H E. induction rs as [|r rs IH]; cbn in *; [discriminate|].
        destruct (H r) as (b & ->); auto. cbn in E.
        destruct (rmapM _ rs); cbn in E; try discriminate. apply IH; auto.
      * exfalso. clear -H E. induction rs as [|r rs IH]; cbn in *; [discriminate|].
        destruct (H r) as (b & ->); auto. cbn in E.
        destruct (rmapM _ rs); cbn in E; try discriminate. apply IH; auto.
Qed.


Definition col_seed (name : str) (n : nat) : list ent :=
  match repeat ENil n with [] => [] | _ :: r => o name :: r end.

Lemma column_outcome : forall C (ev : C -> nat -> res value * C) init g sched name (h : row) (d : table),
  row_function ev init g -> complete_schedule (S (length d)) sched ->
  match par_over_tablerows (assign_cb ev (fun _ v => Ok (ent_of_val v))) init sched
          (col_seed name (S (length d))) with
  | Ok col => exists es, col = o name :: es /\ map Ok es = map (fun i => rmap ent_of_val (g i)) (seq 1 (length d))
  | Err e => exists i, 1 <= i <= length d /\ g i = Err e
  | Panic => exists i, 1 <= i <= length d /\ g i = Panic
  end.
Proof.
  intros C ev init g sched name h d Hev HS. unfold col_seed. cbn [repeat].
  pose proof (@assign_outcome ent C ev init g (fun _ v => Ok (ent_of_val v)) Hev sched (o name) (repeat ENil (length d))) as H.
  rewrite repeat_length in H. specialize (H HS).
  assert (J : forall i, job g (fun _ v => Ok (ent_of_val v)) i = rmap ent_of_val (g i)).
  { intros i. unfold job. destruct (g i); reflexivity. }
  destruct (par_over_tablerows _ _ _ _) as [l|e|].
  - destruct H as (keys & -> & H). exists keys. split; [reflexivity|]. etransitivity; [exact H|now apply map_ext].
  - destruct H as ((i & Hi & Ei) & _). apply in_seq in Hi. exists i. rewrite J in Ei.
    split; [lia|]. destruct (g i); cbn in Ei; congruence.
  - destruct H as (i & Hi & Ei). apply in_seq in Hi. exists i. rewrite J in Ei.
    split; [lia|]. destruct (g i); cbn in Ei; congruence.
Qed.

Lemma max_width_le : forall (l : list (list ent)) n, (forall c, In c l -> length c <= n) -> max_width l <= n.
Proof.
  induction l as [|c l IH]; intros n H; [cbn; lia|]. rewrite max_width_cons.
  apply Nat.max_lub; [apply H; cbn; auto|apply IH; intros; apply H; cbn; auto].
Qed.

Lemma pad_same : forall w (r : row), length r = w -> pad w r = r.
Proof. intros w r H. unfold pad. rewrite H, Nat.sub_diag. cbn. apply app_nil_r. Qed.

(** Adding columns of the height of the table. *)
Lemma add_cols_rows : forall (t : table) (cs : list (list ent)),
  rectangular t -> (forall c, In c cs -> length c = length t) ->
  length (add_cols t cs) = length t /\
  forall i r, nth_error t i = Some r ->
    nth_error (add_cols t cs) i = Some (r ++ map (fun c => nth i c ENil) cs).
Proof.
  intros t cs HR HC. unfold add_cols.
  assert (Nat.max (rows_len t) (max_width cs) = length t) as ->.
  { assert (max_width cs <= length t) by (apply max_width_le; intros; rewrite HC; auto). unfold rows_len. lia. }
  split; [now rewrite map_length, seq_length|].
  intros i r Hr. rewrite nth_error_map, nth_error_seq.
  assert (i < length t) by (apply nth_error_Some; congruence).
  destruct (Nat.ltb_spec i (length t)); [|lia]. cbn [option_map]. rewrite Nat.add_0_l.
  rewrite (nth_error_nth t i [] Hr). rewrite pad_same; [reflexivity|].
  apply (rectangular_width HR). eapply nth_error_In; eauto.
Qed.

Theorem append_table_outcome : forall C (cols : list (column_job C)) init scheds order (t : table),
  rectangular t ->
  (forall ev name g, In ((ev, name), g) cols -> row_function ev init g) ->
  length scheds = length cols -> Forall (complete_schedule (length t)) scheds ->
  Permutation order (seq 0 (length cols)) ->
  match append_table (map fst cols) init scheds order t with
  | Ok t' => length t' = length t /\
      forall i r, nth_error t i = Some r -> exists extra,
        nth_error t' i = Some (r ++ extra) /\
        (i = 0 -> extra = map (fun c => EObj (VStr (snd (fst c)))) cols) /\
        (1 <= i -> map Ok extra = map (fun c => rmap ent_of_val (snd c i)) cols)
  | Err e => exists c i, In c cols /\ 1 <= i <= length (data t) /\ snd c i = Err e
  | Panic => exists c i, In c cols /\ 1 <= i <= length (data t) /\ snd c i = Panic
  end.
Proof.
  intros C cols init scheds order t HR HF HLs HSs HO.
  destruct t as [|h d].
  { unfold append_table. cbn [rows_len length repeat].
    assert (E : map (fun x : ((C -> nat -> res value * C) * str) * list (nat * nat) =>
       let '((ev, name), s) := x in par_over_tablerows (assign_cb ev (fun _ v => Ok (ent_of_val v))) init s [])
       (combine (map fst cols) scheds) = map (fun _ => Ok ([] : list ent)) cols).
    { clear -HLs HSs. revert scheds HLs HSs. induction cols as [|[[ev n] g] cols IH]; intros [|s scheds] HL HS; cbn in *; try discriminate; auto.
      inversion HS as [|? ? H1 H2]; subst. f_equal; auto.
      unfold complete_schedule in H1. cbn in H1. apply Permutation_sym, Permutation_nil in H1.
      apply map_eq_nil in H1. subst. reflexivity. }
    rewrite E. pose proof (@gather_spec _ order (map (fun _ => Ok ([] : list ent)) cols)) as G.
    rewrite map_length in G. specialize (G HO).
    destruct (gather order _) as [l|e|]; cbn [rbind].
    - assert (El : forall c, In c l -> c = []).
      { intros c Hc. apply (in_map Ok) in Hc. rewrite G in Hc. apply in_map_iff in Hc.
        destruct Hc as (? & [= <-] & _). reflexivity. }
      unfold add_cols. cbn [rows_len cols_len length].
      assert (max_width l = 0) as ->.
      { assert (max_width l <= 0); [|lia]. apply max_width_le. intros c Hc. rewrite (El c Hc). cbn. lia. }
      cbn. split; auto. intros []; discriminate.
    - destruct G as [G _]. apply in_map_iff in G. destruct G as (? & ? & _). discriminate.
    - apply in_map_iff in G. destruct G as (? & ? & _). discriminate. }
  unfold append_table. cbn [rows_len length data]. unfold rows_len.
  set (results := map _ (combine (map fst cols) scheds)).
  assert (HLr : length results = length cols).
  { unfold results. rewrite map_length, combine_length, map_length. rewrite HLs. apply Nat.min_id. }
  assert (HRes : forall k c, nth_error cols k = Some c -> exists s,
     complete_schedule (S (length d)) s /\
     nth_error results k = Some (par_over_tablerows (assign_cb (fst (fst c)) (fun _ v => Ok (ent_of_val v))) init s
            (col_seed (snd (fst c)) (S (length d))))).
  { intros k c Hk. assert (k < length scheds) by (rewrite HLs; apply nth_error_Some; congruence).
    destruct (nth_error scheds k) as [s|] eqn:Es; [|apply nth_error_None in Es; lia].
    exists s. split.
    - rewrite Forall_forall in HSs. apply HSs. eapply nth_error_In; eauto.
    - unfold results. rewrite nth_error_map, nth_error_combine, nth_error_map, Hk, Es.
      destruct c as [[ev n] g]. reflexivity. }
  pose proof (@gather_spec _ order results) as G. rewrite HLr in G. specialize (G HO).
  destruct (gather order results) as [l|e|]; cbn [rbind].
  - assert (HLl : length l = length cols).
    { rewrite <- HLr, <- G. now rewrite map_length. }
    assert (HCol : forall k c, nth_error cols k = Some c -> exists es,
       nth_error l k = Some (o (snd (fst c)) :: es) /\
       map Ok es = map (fun i => rmap ent_of_val (snd c i)) (seq 1 (length d))).
    { intros k c Hk. destruct (HRes k c Hk) as (s & Hs & Er).
      destruct c as [[ev n] g].
      pose proof (@column_outcome C ev init g s n h d (HF ev n g (nth_error_In _ _ Hk)) Hs) as CO.
      cbn [fst snd] in *. rewrite <- G, nth_error_map in Er.
      destruct (nth_error l k) as [col|]; [|discriminate]. cbn [option_map] in Er. apply Some_eq in Er.
      rewrite <- Er in CO. destruct CO as (es & -> & HM). exists es. auto. }
    assert (HLen : forall c, In c l -> length c = length (h :: d)).
    { intros c Hc. apply In_nth_error in Hc. destruct Hc as (k & Hk).
      assert (k < length cols) by (rewrite <- HLl; apply nth_error_Some; congruence).
      destruct (nth_error cols k) as [cj|] eqn:Ec; [|apply nth_error_None in Ec; lia].
      destruct (HCol k cj Ec) as (es & El & HM). rewrite Hk in El. injection El as ->.
      apply (f_equal (@length _)) in HM. rewrite !map_length, seq_length in HM. cbn. lia. }
    destruct (@add_cols_rows (h :: d) l HR HLen) as [L1 L2]. split; auto.
    intros i r Hr. exists (map (fun c => nth i c ENil) l). split; [now apply L2|].
    assert (Hi : i < S (length d)) by (apply (proj1 (nth_error_Some (h :: d) i)); congruence).
    split.
    + intros ->. apply nth_error_ext. intros k. rewrite !nth_error_map.
      destruct (nth_error cols k) as [c|] eqn:Ec.
      * destruct (HCol k c Ec) as (es & -> & _). reflexivity.
      * apply nth_error_None in Ec. replace (nth_error l k) with (@None (list ent)); [reflexivity|].
        symmetry. apply nth_error_None. lia.
    + intros H1. apply nth_error_ext. intros k. rewrite !nth_error_map.
      destruct (nth_error cols k) as [c|] eqn:Ec.
      * destruct (HCol k c Ec) as (es & -> & HM). cbn [option_map].
        destruct i as [|i]; [lia|]. cbn [nth].
        assert (nth_error (map (@Ok ent) es) i = Some (rmap ent_of_val (snd c (S i)))) as E.
        { rewrite HM, nth_error_map, nth_error_seq. destruct (Nat.ltb_spec i (length d)); [|lia]. reflexivity. }
        rewrite nth_error_map in E. destruct (nth_error es i) as [e|] eqn:Ee; [|discriminate].
        cbn in E. rewrite (nth_error_nth es i ENil Ee). exact E.
      * apply nth_error_None in Ec. replace (nth_error l k) with (@None (list ent)); [reflexivity|].
        symmetry. apply nth_error_None. lia.
  - destruct G as [G _]. apply In_nth_error in G. destruct G as (k & Hk).
    assert (k < length cols) by (rewrite <- HLr; apply nth_error_Some; congruence).
    destruct (nth_error cols k) as [[[ev n] g]|] eqn:Ec; [|apply nth_error_None in Ec; lia].
    destruct (HRes k _ Ec) as (s & Hs & Er). rewrite Hk in Er. apply Some_eq in Er. cbn [fst snd] in Er.
    pose proof (@column_outcome C ev init g s n h d (HF ev n g (nth_error_In _ _ Ec)) Hs) as CO.
    rewrite <- Er in CO. destruct CO as (i & Hi & Ei). exists ((ev, n), g), i.
    split; [eapply nth_error_In; eauto|auto].
  - apply In_nth_error in G. destruct G as (k & Hk).
    assert (k < length cols) by (rewrite <- HLr; apply nth_error_Some; congruence).
    destruct (nth_error cols k) as [[[ev n] g]|] eqn:Ec; [|apply nth_error_None in Ec; lia].
    destruct (HRes k _ Ec) as (s & Hs & Er). rewrite Hk in Er. apply Some_eq in Er. cbn [fst snd] in Er.
    pose proof (@column_outcome C ev init g s n h d (HF ev n g (nth_error_In _ _ Ec)) Hs) as CO.
    rewrite <- Er in CO. destruct CO as (i & Hi & Ei). exists ((ev, n), g), i.
    split; [eapply nth_error_In; eauto|auto].
Qed.

(** Column names: the k-th is the k-th flag if there is one, else numbered from 1. *)
Lemma append_names_spec : forall n flags auto k, k < n ->
  nth_error (append_names n flags auto) k =
  Some (match nth_error flags k with
        | Some f => f
        | None => lit "_append" ++ dec (auto + (k - length flags))
        end).
Proof.
  induction n as [|n IH]; intros flags auto k Hk; [lia|]. cbn [append_names].
  destruct flags as [|f flags].
  - destruct k as [|k]; cbn [nth_error length].
    + replace (auto + (0 - 0)) with auto by lia. reflexivity.
    + rewrite IH by lia. replace (nth_error (@nil str) k) with (@None str) by (destruct k; reflexivity).
      cbn [length]. replace (S auto + (k - 0)) with (auto + (S k - 0)) by lia. reflexivity.
  - destruct k as [|k]; cbn; auto. apply IH. lia.
Qed.

Lemma append_names_length : forall n flags auto, length (append_names n flags auto) = n.
Proof. induction n; intros [|f flags] auto; cbn; auto. Qed.

(** ** append-row *)


Lemma name_nils_spec : forall h i j,
  nth_error (name_nils i h) j =
  match nth_error h j with
  | Some ENil => Some (EObj (VStr (lit "_append" ++ dec (i + nils_before j h))))
  | x => x
  end.
Proof.
  induction h as [|e h IH]; intros i j; [destruct j; reflexivity|].
  destruct e as [|z|v]; destruct j as [|j]; cbn [name_nils nth_error]; auto; try apply IH.
  - unfold nils_before. cbn [firstn filter length]. rewrite Nat.add_0_r. reflexivity.
  - rewrite IH. unfold nils_before. cbn [firstn filter length].
    replace (S i + length (filter (fun e : ent => match e with ENil => true | _ => false end) (firstn j h)))
      with (i + S (length (filter (fun e : ent => match e with ENil => true | _ => false end) (firstn j h)))) by lia.
    reflexivity.
Qed.

Lemma name_nils_length : forall h i, length (name_nils i h) = length h.
Proof. induction h as [|[] h IH]; intros; cbn; auto. Qed.

Lemma nth_error_pad : forall w (r : row) j, length r <= w ->
  nth_error (pad w r) j = if j <? w then Some (nth j r ENil) else None.
Proof.
  intros w r j H. unfold pad.
  destruct (Nat.ltb_spec j w).
  - destruct (Nat.lt_ge_cases j (length r)).
    + rewrite nth_error_app1 by auto. now apply nth_error_nth_lt.
    + rewrite nth_error_app2 by auto. rewrite nth_overflow by auto.
      rewrite nth_error_repeat. destruct (Nat.ltb_spec (j - length r) (w - length r)); [reflexivity|lia].
  - apply nth_error_None. rewrite app_length, repeat_length. lia.
Qed.

Lemma pad_widen : forall w h, length h <= w -> pad w h = widen w h.
Proof.
  intros w h H. apply nth_error_ext. intros j. rewrite nth_error_pad by auto. unfold widen.
  rewrite nth_error_map, nth_error_seq. destruct (j <? w); reflexivity.
Qed.

Theorem append_row_correct : forall vals (t : table), rectangular t ->
  match append_row vals t with
  | Ok t' => exists vs, map Ok vs = vals /\
      let new := map ent_of_val vs in
      let w := Nat.max (cols_len t) (length vs) in
      data t' = (match t with [] => [] | _ => map (widen w) (data t) ++ [widen w new] end) /\
      header t' = [name_nils 1 (widen w (match t with [] => new | h :: _ => h end))]
  | Err e => In (Err e) vals
  | Panic => In Panic vals
  end.
Proof.
  intros vals t HR. unfold append_row.
  assert (G : match rmapM (fun r : res value => r) vals with
              | Ok vs => map Ok vs = vals | Err e => In (Err e) vals | Panic => In Panic vals end).
  { clear. induction vals as [|r vals IH]; cbn; auto.
    destruct r as [v|e|]; cbn; auto. destruct (rmapM _ vals); cbn; auto. now f_equal. }
  destruct (rmapM (fun r : res value => r) vals) as [vs|e|]; cbn [rbind]; auto.
  set (new := map ent_of_val vs).
  assert (Hn : length new = length vs) by (unfold new; now rewrite map_length).
  destruct t as [|h d].
  - unfold add_row, add_rows, table_from. cbn [app map]. rewrite max_width_cons. cbn [max_width fold_right].
    exists vs. split; auto. cbn. split; auto. rewrite Nat.max_0_r, Hn.
    rewrite pad_widen by lia. reflexivity.
  - unfold add_row, add_rows, table_from.
    assert (HM : max_width ((h :: d) ++ [new]) = Nat.max (length h) (length vs)).
    { rewrite <- Hn. assert (HW : width_is (length h) (h :: d)) by apply (rectangular_width HR).
      apply Nat.le_antisymm.
      - apply max_width_le. intros c Hc. apply in_app_or in Hc.
        destruct Hc as [Hc|[<-|[]]]; [rewrite (HW c Hc)|]; lia.
      - apply Nat.max_lub; apply max_width_ge; apply in_or_app; cbn; auto. }
    rewrite HM. cbn [app map]. rewrite map_app. cbn [map].
    assert (HP : forall r, In r (h :: d) -> pad (Nat.max (length h) (length vs)) r = widen (Nat.max (length h) (length vs)) r).
    { intros r Hr. apply pad_widen. rewrite (HR r h Hr); cbn; auto; lia. }
    exists vs. split; auto. cbn [data header cols_len]. split.
    + f_equal.
      * apply map_ext_in. intros r Hr. apply HP; cbn; auto.
      * now rewrite pad_widen by lia.
    + now rewrite HP by (cbn; auto).
Qed.

(** ** map *)


Lemma zip_col_nth : forall j rows vs i, length vs = length rows ->
  nth_error (zip_col j rows vs) i =
  match nth_error rows i, nth_error vs i with
  | Some r, Some v => Some (set_nth j (ent_of_val v) r) | _, _ => None end.
Proof.
  induction rows as [|r rows IH]; intros [|v vs] i H; cbn in H; try discriminate.
  - destruct i; reflexivity.
  - destruct i; cbn; auto.
Qed.

Theorem map_table_outcome : forall C (tf : C -> nat -> value -> res value * C) init G sched force in_ty name (t : table),
  rectangular t -> row_function_in tf init G -> complete_schedule (length t) sched ->
  match map_table tf init sched force in_ty name t with
  | Ok t' => exists n j, name = Ok (VStr n) /\ column_named t n j /\
      header t' = header t /\ length t' = length t /\
      forall i r, 1 <= i -> nth_error t i = Some r -> exists v,
        map_result G force in_ty j t i = Ok v /\ nth_error t' i = Some (set_nth j (ent_of_val v) r)
  | Err e => name = Err e \/ (exists v, name = Ok v /\ ty_of v <> TStr) \/
      (exists n, name = Ok (VStr n) /\ (no_column_named t n \/
         exists j i, column_named t n j /\ 1 <= i < length t /\ map_result G force in_ty j t i = Err e))
  | Panic => name = Panic \/ exists n j i, name = Ok (VStr n) /\ column_named t n j /\ 1 <= i < length t /\
         map_result G force in_ty j t i = Panic
  end.
Proof.
  intros C tf init G sched force in_ty name t HR (inv & Hi & Hstep) HS. unfold map_table.
  destruct name as [nv|e|]; cbn [rbind]; auto.
  destruct nv as [| | |n| | |]; cbn [as_str rbind];
    try (right; left; eexists; split; [reflexivity|discriminate]).
  pose proof (col_idx_spec t n) as HC.
  destruct (col_idx t n) as [j|e|] eqn:Ej; cbn [rbind].
  2:{ right; right. exists n. auto. }
  2:{ destruct HC. }
  pose (upd := fun i v => match map_result G force in_ty j t i with Ok v' => v' | _ => v end).
  pose (r := fun i => match map_result G force in_ty j t i with Ok _ => Ok tt | Err e => Err e | Panic => @Panic unit end).
  assert (Hf : forall a c i, inv c -> 1 <= i ->
    exists c', map_cb tf force in_ty j t a c i = (upd i a, c', r i) /\ inv c').
  { intros a c i Hc H1. unfold map_cb, upd, r, map_result.
    destruct force.
    - destruct (Hstep c i VNil Hc H1) as [E1 E2]. destruct (tf c i VNil) as [x c'] eqn:Et. cbn in E1, E2. subst x.
      exists c'. split; auto. destruct (G i VNil); reflexivity.
    - unfold entry_at, get_cell, cell. destruct (match nth_error t i with Some r0 => nth_error r0 j | None => None end) as [e|]; cbn [rbind].
      + unfold cnv_value. destruct (ty_eqb (ty_of (val_of_ent e)) in_ty).
        * destruct (Hstep c i (val_of_ent e) Hc H1) as [E1 E2]. destruct (tf c i (val_of_ent e)) as [x c'] eqn:Et. cbn in E1, E2. subst x.
          exists c'. split; auto. destruct (G i (val_of_ent e)); reflexivity.
        * exists c. auto.
      + exists c. auto. }
  assert (HS' : complete_schedule (length (repeat VNil (rows_len t))) sched) by (rewrite repeat_length; exact HS).
  pose proof (@par_over_tablerows_outcome _ _ _ init inv upd r Hi Hf sched (repeat VNil (rows_len t)) HS') as H.
  rewrite repeat_length in H. unfold rows_len in *.
  destruct (par_over_tablerows _ _ _ _) as [vs|e|]; cbn [rbind].
  - destruct H as (HL & Hr & HN).
    destruct HC as (h & d & -> & HC). cbn [length] in HL. destruct vs as [|v0 vs]; [discriminate|].
    exists n, j. split; auto. split; [exists h, d; tauto|].
    cbn in HL. injection HL as HL.
    assert (HLz : length (zip_col j d vs) = length d).
    { clear -HL. revert vs HL. induction d as [|x d IH]; intros [|v vs]; cbn; intros; try discriminate; auto. }
    split; [reflexivity|]. split; [cbn; now rewrite HLz|].
    intros i rw H1 Hrw. destruct i as [|i]; [lia|]. cbn in Hrw.
    assert (i < length d) by (apply nth_error_Some; congruence).
    specialize (HN (S i)). cbn in HN.
    rewrite nth_error_repeat in HN. destruct (Nat.ltb_spec i (length d)); [|lia]. cbn [option_map] in HN.
    assert (r (S i) = Ok tt) as Hok by (apply Hr; cbn; lia).
    unfold r, upd in *. destruct (map_result G force in_ty j (h :: d) (S i)) as [v| |]; try discriminate.
    exists v. split; auto. cbn [nth_error]. rewrite zip_col_nth by auto. now rewrite Hrw, HN.
  - destruct H as ((i & H1 & E) & _). right; right. exists n. split; auto. right. exists j, i.
    split; auto. split; [lia|]. unfold r in E. destruct (map_result G force in_ty j t i); congruence.
  - destruct H as (i & H1 & E). right. exists n, j, i. split; auto. split; auto. split; [lia|].
    unfold r in E. destruct (map_result G force in_ty j t i); congruence.
Qed.
