From Coq Require Import String List Permutation Sorted Bool Arith Lia NArith ZArith.
From Verif Require Import Spec.OpsSpec Model.Base Model.Value Model.TableCrate Model.RowPar Model.TableOps
  Spec.TableSpec Spec.ColSpec
  Proofs.ListLemmas Proofs.TableBasics Proofs.ColLemmas.
Import ListNotations.
Set Implicit Arguments.

(** ** pick *)



Lemma pick_indices_spec : forall add names t,
  match pick_indices add names t with
  | Ok idxs => exists sel, idxs = combine sel names /\ Forall2 (selects add t) names sel
  | Err _ => add = false /\ exists n, In n names /\ no_column_named t n
  | Panic => False
  end.
Proof.
  intros add names t. unfold pick_indices. induction names as [|n names IH]; cbn.
  - exists []. split; auto.
  - pose proof (col_idx_spec t n) as H. destruct (col_idx t n) as [c|e|]; cbn.
    + destruct (rmapM _ names) as [idxs|e|]; cbn; auto.
      * destruct IH as (sel & -> & F). exists (Some c :: sel). split; auto.
      * destruct IH as (E & m & Hm & Nm). split; auto. exists m; auto.
    + destruct add; cbn.
      * destruct (rmapM _ names) as [idxs|e'|]; cbn; auto.
        { destruct IH as (sel & -> & F). exists (None :: sel). split; auto. constructor; auto. cbn; auto. }
        { destruct IH as [? _]. discriminate. }
      * split; auto. exists n; auto.
    + auto.
Qed.


Lemma pick_row_ok : forall idxs i (r : row),
  (forall c n, In (Some c, n) idxs -> c < length r) ->
  pick_row idxs i r = Ok (map (fun x => picked_cell i r (snd x) (fst x)) idxs).
Proof.
  intros idxs i r H. apply rmapM_ok_iff. induction idxs as [|[s n] idxs IH]; cbn; constructor.
  - destruct s as [c|]; cbn; auto. unfold cell_at.
    rewrite (@nth_error_nth_lt _ r c ENil); auto. eapply H; cbn; eauto.
  - apply IH. intros; eapply H; cbn; eauto.
Qed.

Lemma pick_rows_ok : forall idxs w (t : table) i, width_is w t ->
  (forall c n, In (Some c, n) idxs -> c < w) ->
  exists rows, pick_rows idxs i t = Ok rows /\ length rows = length t /\ width_is (length idxs) rows /\
    forall k r, nth_error t k = Some r ->
      nth_error rows k = Some (map (fun x => picked_cell (i + k) r (snd x) (fst x)) idxs).
Proof.
  induction t as [|r t IH]; intros i HW HI.
  - exists []. cbn. repeat split; auto. intros ? []. intros []; discriminate.
  - cbn. rewrite pick_row_ok; [|intros; rewrite (HW r); cbn; eauto]. cbn.
    destruct (IH (S i)) as (rows & E & L & W & N); auto. { intros x Hx; apply HW; cbn; auto. }
    rewrite E. cbn. eexists. split; [reflexivity|]. split; [cbn; now rewrite L|]. split.
    + intros x [<-|Hx]; [now rewrite map_length|auto].
    + intros [|k] r0 Hk; cbn in *.
      * injection Hk as <-. rewrite Nat.add_0_r. reflexivity.
      * rewrite (N k r0 Hk). replace (i + S k) with (S i + k) by lia. reflexivity.
Qed.

Lemma seq_sorted : forall n i, StronglySorted lt (seq i n).
Proof.
  induction n as [|n IH]; intros i; cbn; constructor; auto.
  apply Forall_forall. intros x Hx. apply in_seq in Hx. lia.
Qed.

Lemma sorted_filter : forall (p : nat -> bool) l, StronglySorted lt l -> StronglySorted lt (filter p l).
Proof.
  induction 1; cbn; [constructor|]. destruct (p a); auto. constructor; auto.
  rewrite Forall_forall in *. intros x Hx. apply filter_In in Hx. apply H0; tauto.
Qed.

Lemma pick_trail_spec : forall t sel (names : list str), length sel = length names ->
  exists rest, pick_trail t (combine sel names) = map (fun c => (Some c, [])) rest /\
               unselected (cols_len t) sel rest.
Proof.
  intros t sel names HL. unfold pick_trail. eexists. split; [reflexivity|]. split.
  - apply sorted_filter, seq_sorted.
  - intros c. rewrite filter_In, in_seq.
    assert (E : existsb (fun x : option nat * str => match fst x with Some j => Nat.eqb c j | None => false end)
                  (combine sel names) = true <-> In (Some c) sel).
    { rewrite existsb_exists. split.
      - intros ([s n] & Hin & Hm). cbn in Hm. destruct s as [j|]; [|discriminate].
        apply Nat.eqb_eq in Hm. subst. eapply in_combine_l; eauto.
      - intros Hin. apply In_nth_error in Hin. destruct Hin as (k & Hk).
        assert (k < length names) by (rewrite <- HL; apply nth_error_Some; congruence).
        destruct (nth_error names k) as [n|] eqn:En; [|apply nth_error_None in En; lia].
        exists (Some c, n). split; [|cbn; apply Nat.eqb_refl].
        apply (nth_error_In _ k). rewrite nth_error_combine, Hk, En. reflexivity. }
    destruct (existsb _ _) eqn:Ex; cbn; split; intros [A B]; try discriminate.
    + exfalso. apply B. now apply E.
    + split; [lia|]. intros Hin. apply E in Hin. discriminate.
    + split; [lia|auto].
Qed.

Theorem pick_table_correct : forall add trail names (t : table), rectangular t ->
  match pick_table add trail names t with
  | Ok t' => exists sel rest, Forall2 (selects add t) names sel /\
      (if trail then unselected (cols_len t) sel rest else rest = []) /\
      length t' = length t /\
      forall i r, nth_error t i = Some r ->
        nth_error t' i = Some (map (fun sn => picked_cell i r (snd sn) (fst sn)) (combine sel names) ++
                               map (fun c => cell_at c r) rest)
  | Err _ => add = false /\ exists n, In n names /\ no_column_named t n
  | Panic => False
  end.
Proof.
  intros add trail names t HR. unfold pick_table.
  pose proof (pick_indices_spec add names t) as H.
  destruct (pick_indices add names t) as [idxs|e|]; cbn [rbind]; auto.
  destruct H as (sel & -> & HF).
  assert (HL : length sel = length names) by (symmetry; eapply Forall2_length'; eauto).
  assert (HB : forall c n, In (Some c, n) (combine sel names) -> c < cols_len t).
  { intros c n Hin. apply In_nth_error in Hin. destruct Hin as (k & Hk).
    rewrite nth_error_combine in Hk. destruct (nth_error sel k) as [s|] eqn:Es; [|discriminate].
    destruct (nth_error names k) as [m|] eqn:Em; [|discriminate]. injection Hk as -> ->.
    destruct (Forall2_nth_error HF k Em) as (s & Es2 & Hs). rewrite Es in Es2. injection Es2 as <-.
    cbn in Hs. eapply column_named_width; eauto. }
  destruct (@pick_trail_spec t sel names HL) as (rest & ER & HU).
  set (rest' := if trail then rest else []).
  assert (EI : (if trail then combine sel names ++ pick_trail t (combine sel names) else combine sel names)
               = combine sel names ++ map (fun c => (Some c, [])) rest').
  { unfold rest'. destruct trail; [now rewrite ER|]. now rewrite app_nil_r. }
  rewrite EI.
  assert (HB2 : forall c n, In (Some c, n) (combine sel names ++ map (fun c => (Some c, [])) rest') -> c < cols_len t).
  { intros c n Hin. apply in_app_or in Hin. destruct Hin as [Hin|Hin]; [eauto|].
    apply in_map_iff in Hin. destruct Hin as (c' & [= <- <-] & Hin). unfold rest' in Hin.
    destruct trail; [|destruct Hin]. apply HU in Hin. tauto. }
  destruct (@pick_rows_ok _ (cols_len t) t 0 (rectangular_width HR) HB2) as (rows & E & L & W & N).
  rewrite E. cbn [rbind]. rewrite table_from_rect by (intros a b Ha Hb; rewrite (W a Ha), (W b Hb); reflexivity).
  exists sel, rest'. split; auto. split; [unfold rest'; destruct trail; auto|]. split; auto.
  intros i r Hr. rewrite (N i r Hr). rewrite map_app, map_map. reflexivity.
Qed.

(** ** ren *)


Lemma set_cell_header : forall j e (h : row) d, set_cell 0 j e (h :: d) = set_nth j e h :: d.
Proof. reflexivity. Qed.

Lemma find_app : forall A (f : A -> bool) l m, find f (l ++ m) = match find f l with Some x => Some x | None => find f m end.
Proof. induction l as [|a l IH]; intros m; cbn; auto. destruct (f a); auto. Qed.

Lemma ren_loop_spec : forall idxs names (h : row) d, length idxs = length names ->
  match ren_loop idxs names (h :: d) with
  | Ok t' => exists vs, map Ok vs = names /\ Forall (fun i => (i < N.of_nat (length h))%N) idxs /\
      exists h', t' = h' :: d /\ length h' = length h /\
      forall j, j < length h ->
        nth_error h' j = match last_for j (combine idxs vs) with
                         | Some v => Some (ent_of_val v) | None => nth_error h j end
  | Err e => (exists i, In i idxs /\ (N.of_nat (length h) <= i)%N) \/ In (Err e) names
  | Panic => In Panic names
  end.
Proof.
  induction idxs as [|i idxs IH]; intros [|n names] h d HL; cbn in HL; try discriminate.
  - cbn. exists []. split; auto. split; [constructor|]. exists h. auto.
  - cbn [ren_loop cols_len].
    destruct (N.ltb_spec i (N.of_nat (length h))) as [Hi|Hi]; [|left; exists i; cbn; auto].
    destruct n as [v|e|]; cbn [rbind]; [|cbn; auto|cbn; auto].
    rewrite set_cell_header.
    specialize (IH names (set_nth (N.to_nat i) (ent_of_val v) h) d). rewrite set_nth_length in IH.
    specialize (IH ltac:(lia)).
    destruct (ren_loop _ _ _) as [t'|e|].
    + destruct IH as (vs & E & F & h' & -> & L & HN). exists (v :: vs). split; [cbn; now f_equal|].
      split; [constructor; auto|]. exists h'. split; auto. split; auto.
      intros j Hj. rewrite (HN j Hj). unfold last_for. cbn [combine rev]. rewrite find_app.
      destruct (find _ (rev (combine idxs vs))) as [b|]; cbn; auto.
      rewrite nth_error_set_nth. destruct (Nat.eqb_spec (N.to_nat i) j) as [Ej|Nj].
      * destruct (N.eqb_spec i (N.of_nat j)); [|lia]. cbn.
        destruct (nth_error h j) eqn:Eh; [reflexivity|apply nth_error_None in Eh; lia].
      * destruct (N.eqb_spec i (N.of_nat j)); [lia|]. reflexivity.
    + destruct IH as [(i' & Hin & Hle)|IH]; cbn; eauto.
    + cbn; auto.
Qed.


Lemma resolve_ref_denotes : forall t r i, resolve_ref t r = Ok i -> denotes t r i.
Proof.
  intros t [v|v] i; cbn.
  - destruct v as [[]| |]; cbn; try discriminate.
    destruct (col_idx t s) as [c| |] eqn:E; cbn; try discriminate. intros [= <-].
    exists s, c. split; auto. split; auto. now apply col_idx_ok.
  - destruct v as [x| |]; cbn; try discriminate. intros H. exists x; auto.
Qed.


Lemma denotes_resolve : forall t r i, denotes t r i -> resolve_ref t r = Ok i.
Proof.
  intros t [v|v] i; cbn.
  - intros (n & c & -> & H & ->). cbn. apply col_idx_iff in H. now rewrite H.
  - intros (x & -> & H). exact H.
Qed.

Theorem ren_table_correct : forall bindings (t : table),
  match ren_table bindings t with
  | Ok t' => exists idxs vs, Forall2 (denotes t) (map fst bindings) idxs /\ map Ok vs = map snd bindings /\
      Forall (fun i => (i < N.of_nat (cols_len t))%N) idxs /\
      data t' = data t /\ length (header t') = length (header t) /\
      forall h, header t = [h] -> exists h', header t' = [h'] /\ length h' = length h /\
        forall j, j < length h ->
          nth_error h' j = match last_for j (combine idxs vs) with
                           | Some v => Some (ent_of_val v) | None => nth_error h j end
  | Err e => (exists r, In r (map fst bindings) /\ bad_ref t r) \/
             (exists r i, In r (map fst bindings) /\ denotes t r i /\ (N.of_nat (cols_len t) <= i)%N) \/
             In (Err e) (map snd bindings)
  | Panic => (exists r, In r (map fst bindings) /\ resolve_ref t r = Panic) \/ In Panic (map snd bindings)
  end.
Proof.
  intros bindings t. unfold ren_table.
  destruct (rmapM (resolve_ref t) (map fst bindings)) as [idxs|e|] eqn:E; cbn [rbind].
  - apply rmapM_ok_iff in E.
    assert (F : Forall2 (denotes t) (map fst bindings) idxs).
    { clear -E. induction E; constructor; auto. now apply resolve_ref_denotes. }
    assert (HL : length idxs = length (map snd bindings)).
    { apply Forall2_length' in F. rewrite map_length in *. congruence. }
    destruct t as [|h d].
    + destruct bindings as [|b bs].
      * inversion F; subst. cbn. exists [], []. repeat split; auto; try constructor. discriminate.
      * inversion F; subst. cbn [map ren_loop cols_len length].
        destruct (N.ltb_spec y (N.of_nat 0)); [lia|]. right; left. exists (fst b), y. cbn; auto.
    + pose proof (@ren_loop_spec idxs (map snd bindings) h d HL) as H.
      destruct (ren_loop idxs (map snd bindings) (h :: d)) as [t'|e|].
      * destruct H as (vs & Ev & HF & h' & -> & L & HN). exists idxs, vs. cbn. repeat split; auto.
        intros h0 [= <-]. exists h'. auto.
      * destruct H as [(i & Hi & Hle)|H]; auto. right; left.
        clear -F Hi Hle. induction F; cbn in *; [easy|].
        destruct Hi as [->|Hi]; [exists x, i; auto|]. destruct (IHF Hi) as (r & i' & A & B & D). exists r, i'. auto.
      * auto.
  - left. clear -E. induction (map fst bindings) as [|r l IH]; cbn in E; [discriminate|].
    destruct (resolve_ref t r) as [i|x|] eqn:Er; cbn in E; try discriminate.
    + destruct (rmapM (resolve_ref t) l) eqn:El; cbn in E; try discriminate. injection E as ->.
      destruct IH as (r' & A & B); auto. exists r'; cbn; auto.
    + exists r. split; [cbn; auto|]. intros i Hd. apply denotes_resolve in Hd. congruence.
  - left. clear -E. induction (map fst bindings) as [|r l IH]; cbn in E; [discriminate|].
    destruct (resolve_ref t r) as [i|x|] eqn:Er; cbn in E; try discriminate.
    + destruct (rmapM (resolve_ref t) l) eqn:El; cbn in E; try discriminate.
      destruct IH as (r' & A & B); auto. exists r'; cbn; auto.
    + exists r. cbn; auto.
Qed.

(** ** ren-with *)

Theorem ren_with_correct : forall rowidx inty expr (t : table), rectangular t ->
  match ren_with_table rowidx inty expr t with
  | Ok t' => exists i r names, cnv_num_to_usize rowidx = Ok i /\ nth_error t (N.to_nat i) = Some r /\
      Forall2 (fun e n => ty_eqb (ty_of (val_of_ent e)) inty = true /\ expr (val_of_ent e) = Ok (VStr n)) r names /\
      header t' = [map (fun n => EObj (VStr n)) names] /\ data t' = data t
  | Err _ => forall i r names, cnv_num_to_usize rowidx = Ok i -> nth_error t (N.to_nat i) = Some r ->
      ~ Forall2 (fun e n => ty_eqb (ty_of (val_of_ent e)) inty = true /\ expr (val_of_ent e) = Ok (VStr n)) r names
  | Panic => exists i r e, cnv_num_to_usize rowidx = Ok i /\ nth_error t (N.to_nat i) = Some r /\
      In e r /\ expr (val_of_ent e) = Panic
  end.
Proof.
  intros rowidx inty expr t HR. unfold ren_with_table.
  destruct (cnv_num_to_usize rowidx) as [i|e|] eqn:Ei; cbn [rbind].
  2:{ intros; discriminate. }
  2:{ unfold cnv_num_to_usize in Ei. destruct rowidx; try discriminate.
      destruct (_ && _); [|discriminate]. destruct (_ <=? _)%N; discriminate. }
  destruct t as [|h d].
  { intros i' r' names _ H. destruct (N.to_nat i'); discriminate. }
  destruct (N.ltb_spec i (N.of_nat (rows_len (h :: d)))) as [Hi|Hi]; unfold rows_len in Hi.
  2:{ intros i' r' names [= <-] H. assert (N.to_nat i < length (h :: d)) by (apply nth_error_Some; congruence). lia. }
  destruct (nth_error (h :: d) (N.to_nat i)) as [r|] eqn:Er.
  2:{ apply nth_error_None in Er. lia. }
  set (f := fun e : ent => let? v := cnv_value e inty in rbind (expr v) as_str).
  destruct (rmapM f r) as [hs|e|] eqn:Ef; cbn [rbind].
  2:{ intros i' r' names [= <-] H HF. rewrite H in Er. injection Er as <-.
      assert (rmapM f r' = Ok names); [|congruence].
      apply rmapM_ok_iff. clear -HF. induction HF as [|e n r names [H1 H2] _ IH]; constructor; auto.
      unfold f, cnv_value. rewrite H1. cbn. now rewrite H2. }
  - exists i, r, hs. split; auto. split; auto.
    apply rmapM_ok_iff in Ef.
    assert (HL : length hs = length h).
    { rewrite <- (Forall2_length' Ef). apply HR; [eapply nth_error_In; eauto|cbn; auto]. }
    split.
    + clear -Ef. induction Ef; constructor; auto. unfold f, cnv_value in H.
      destruct (ty_eqb (ty_of (val_of_ent x)) inty); cbn in H; [|discriminate].
      destruct (expr (val_of_ent x)) as [[]| |]; cbn in H; try discriminate. injection H as ->. auto.
    + cbn [header data]. split; auto. rewrite HL, skipn_all, app_nil_r. f_equal.
      clear -HL. revert hs HL. induction h as [|e h IH]; intros [|n hs]; cbn; intros; try discriminate; auto.
      f_equal. auto.
  - exists i, r. clear -Ef Er Ei. assert (exists e, In e r /\ expr (val_of_ent e) = Panic) as (e & A & B); [|exists e; auto].
    clear Er Ei. induction r as [|e r IH]; cbn in Ef; [discriminate|].
    destruct (f e) as [x|x|] eqn:Efe; cbn in Ef; try discriminate.
    + destruct (rmapM f r); cbn in Ef; try discriminate. destruct IH as (e' & A & B); auto. exists e'; cbn; auto.
    + exists e. split; [cbn; auto|]. unfold f, cnv_value in Efe.
      destruct (ty_eqb _ _); cbn in Efe; [|discriminate].
      destruct (expr (val_of_ent e)) as [[]| |]; cbn in Efe; try discriminate. reflexivity.
Qed.
