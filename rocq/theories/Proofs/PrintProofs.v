From Coq Require Import List Arith Lia Bool.
From Verif Require Import Model.Base Model.Value Model.TableCrate Model.Print Spec.TableSpec Spec.PrintSpec.
Import ListNotations.

Lemma split3 : forall A (l : list A) a b, a + b <= length l ->
  exists front omitted back, l = front ++ omitted ++ back /\ length front = a /\ length back = b /\
    length omitted = length l - a - b /\ front = firstn a l /\ back = skipn (length l - a - b) (skipn a l).
Proof.
  intros A l a b H. exists (firstn a l), (firstn (length l - a - b) (skipn a l)), (skipn (length l - a - b) (skipn a l)).
  rewrite !firstn_skipn. rewrite firstn_length, skipn_length, firstn_length, skipn_length. repeat split; auto; lia.
Qed.

Lemma fmt_row_shows : forall r c h, length r = c -> shows_row h r (fmt_row r (Nat.ltb COLS_LIM c) c h).
Proof.
  intros r c h <-. unfold shows_row, fmt_row, COLS_LIM.
  destruct (Nat.leb_spec (length r) 7) as [H|H]; destruct (Nat.ltb_spec 7 (length r)); try lia.
  - now rewrite firstn_all.
  - destruct (split3 _ r 3 3) as (f & o & b & E & L1 & L2 & L3 & Ef & Eb); [lia|].
    exists f, o, b. split; auto. split; auto. split; auto. rewrite L3.
    replace (length r - 3 - 3) with (length r - 6) in * by lia. now rewrite Ef, Eb.
Qed.

Lemma fmt_row_width : forall r c h, length r = c -> length (fmt_row r (Nat.ltb COLS_LIM c) c h) = Nat.min c 7.
Proof.
  intros r c h H. pose proof (fmt_row_shows r c h H) as S. unfold shows_row in S. rewrite H in S.
  destruct (Nat.leb_spec c 7).
  - rewrite S, map_length. lia.
  - destruct S as (f & o & b & E & L1 & L2 & ->). rewrite app_length. cbn. rewrite !map_length. lia.
Qed.

(** A list of printed rows shows a list of rows. *)
Lemma map_fmt : forall c (rows : list row), Forall (fun r => length r = c) rows ->
  Forall2 (shows_row false) rows (map (fun r => fmt_row r (Nat.ltb COLS_LIM c) c false) rows).
Proof. induction 1; cbn; constructor; auto. now apply fmt_row_shows. Qed.

Lemma cols_len_cons : forall h (d : table), cols_len (h :: d) = length h. Proof. reflexivity. Qed.

Theorem print_header : forall h (d : table), rectangular (h :: d) -> 1 <= length h ->
  exists head body, print_table true (h :: d) = Ok (PTable (Some head) body) /\ shows_row true h head /\
    if Nat.leb (length d) 29 then Forall2 (shows_row false) d body
    else exists front omitted back bf bb, d = front ++ omitted ++ back /\ length front = 5 /\ length back = 5 /\
         body = bf ++ (CRowsElided (length omitted) :: repeat CDots (length head - 1)) :: bb /\
         Forall2 (shows_row false) front bf /\ Forall2 (shows_row false) back bb.
Proof.
  intros h d HR HC.
  assert (HF : Forall (fun r => length r = length h) d).
  { apply Forall_forall. intros r Hr. apply HR; [now right|now left]. }
  unfold print_table. cbn [is_empty]. rewrite cols_len_cons. change (rows_len (h :: d)) with (S (length d)).
  set (lc := Nat.ltb COLS_LIM (length h)) in *.
  pose proof (fmt_row_shows h (length h) true eq_refl) as SH. fold lc in SH.
  pose proof (fmt_row_width h (length h) true eq_refl) as WH. fold lc in WH.
  destruct (Nat.leb_spec (length d) 29) as [H|H]; unfold ROWS_LIM; destruct (Nat.ltb_spec 30 (S (length d))); try lia.
  - eexists _, _. split; [reflexivity|]. split; auto.
    rewrite firstn_all2 by lia. apply map_fmt. auto.
  - replace (negb lc && Nat.eqb (length h) 0) with false by (destruct (Nat.eqb_spec (length h) 0); [lia|now rewrite andb_false_r]).
    destruct (split3 _ d 5 5) as (f & o & b & E & L1 & L2 & L3 & Ef & Eb); [lia|].
    eexists _, _. split; [reflexivity|]. split; auto. exists f, o, b. eexists _, _.
    split; auto. split; auto. split; auto. split.
    + replace (length o) with (S (length d) - 10 - 1) by lia. rewrite WH.
      replace (Nat.min (length h) 7 - 1) with (if lc then 6 else length h - 1); [reflexivity|].
      unfold lc, COLS_LIM. destruct (Nat.ltb_spec 7 (length h)); lia.
    + assert (FF : Forall (fun r => length r = length h) f /\ Forall (fun r => length r = length h) b).
      { rewrite E in HF. apply Forall_app in HF as [? HF]. apply Forall_app in HF as [? ?]. auto. }
      split.
      * rewrite <- Ef. apply map_fmt. tauto.
      * replace (S (length d) - 11) with (length d - 5 - 5) by lia. rewrite <- Eb. apply map_fmt. tauto.
Qed.

Theorem print_no_header : forall h (d : table), rectangular (h :: d) -> 1 <= length h ->
  exists body, print_table false (h :: d) = Ok (PTable None body) /\
    if Nat.leb (length (h :: d)) 30 then Forall2 (shows_row false) (h :: d) body
    else exists front omitted back bf bb w, h :: d = front ++ omitted ++ back /\ length front = 5 /\ length back = 6 /\
         body = bf ++ (CRowsElided (length omitted + 1) :: repeat CDots w) :: bb /\
         Forall2 (shows_row false) front bf /\ Forall2 (shows_row false) back bb.
Proof.
  intros h d HR HC.
  assert (HF : Forall (fun r => length r = length h) (h :: d)).
  { apply Forall_forall. intros r Hr. apply HR; auto. now left. }
  unfold print_table. cbn [is_empty]. rewrite cols_len_cons. unfold rows_len.
  set (t := h :: d) in *. set (lc := Nat.ltb COLS_LIM (length h)) in *.
  destruct (Nat.leb_spec (length t) 30) as [H|H]; unfold ROWS_LIM; destruct (Nat.ltb_spec 30 (length t)); try lia.
  - eexists. split; [reflexivity|]. rewrite firstn_all. apply map_fmt. auto.
  - replace (negb lc && Nat.eqb (length h) 0) with false by (destruct (Nat.eqb_spec (length h) 0); [lia|now rewrite andb_false_r]).
    destruct (split3 _ t 5 6) as (f & o & b & E & L1 & L2 & L3 & Ef & Eb); [lia|].
    eexists. split; [reflexivity|]. exists f, o, b. eexists _, _, _.
    split; auto. split; auto. split; auto. split.
    + replace (length o + 1) with (length t - 10 - 0) by lia. reflexivity.
    + assert (FF : Forall (fun r => length r = length h) f /\ Forall (fun r => length r = length h) b).
      { rewrite E in HF. apply Forall_app in HF as [? HF]. apply Forall_app in HF as [? ?]. auto. }
      split.
      * rewrite <- Ef. apply map_fmt. tauto.
      * replace (length t - 11) with (length t - 5 - 6) by lia. rewrite <- Eb. apply map_fmt. tauto.
Qed.

Theorem print_same_width : forall header (t : table) head body, rectangular t -> print_table header t = Ok (PTable head body) ->
  Forall (fun r => length r = Nat.min (cols_len t) 7) body /\
  match head with Some r => length r = Nat.min (cols_len t) 7 | None => True end.
Proof.
  intros header t head body HR. unfold print_table. destruct (is_empty t) eqn:E0; [discriminate|].
  destruct t as [|h d]; [discriminate|]. rewrite cols_len_cons. set (c := length h).
  assert (HF : forall r, In r (h :: d) -> length r = c) by (intros r Hr; apply HR; auto; now left).
  assert (HB : forall rows, incl rows (h :: d) ->
     Forall (fun r => length r = Nat.min c 7) (map (fun r => fmt_row r (Nat.ltb COLS_LIM c) c false) rows)).
  { intros rows HI. apply Forall_forall. intros x Hx. apply in_map_iff in Hx as (r & <- & Hr). apply fmt_row_width. auto. }
  set (rows := if header then d else h :: d).
  assert (HI : incl rows (h :: d)) by (unfold rows; destruct header; intros x Hx; cbn; auto).
  set (hd' := if header then Some (fmt_row h (Nat.ltb COLS_LIM c) c true) else None).
  replace (if header then (Some (fmt_row h (Nat.ltb COLS_LIM c) c true), d) else (None, h :: d)) with (hd', rows)
    by (unfold hd', rows; destruct header; reflexivity).
  assert (HH : match hd' with Some r => length r = Nat.min c 7 | None => True end)
    by (unfold hd'; destruct header; auto; now apply fmt_row_width).
  assert (I1 : forall n, incl (firstn n rows) (h :: d)).
  { intros n x Hx. apply HI. rewrite <- (firstn_skipn n rows). apply in_or_app. auto. }
  assert (I2 : forall n l, incl l (h :: d) -> incl (skipn n l) (h :: d)).
  { intros n l Hl x Hx. apply Hl. rewrite <- (firstn_skipn n l). apply in_or_app. auto. }
  destruct (Nat.ltb ROWS_LIM (rows_len (h :: d))).
  - destruct (negb (Nat.ltb COLS_LIM c) && Nat.eqb c 0) eqn:EC; [discriminate|]. intros [= <- <-]. split; auto.
    apply Forall_app. split; [apply HB, (I1 5)|]. constructor; [|apply HB, I2, (I2 5 rows HI)].
    cbn [length]. rewrite repeat_length. unfold COLS_LIM in *. destruct (Nat.ltb_spec 7 c); [lia|].
    cbn in EC. destruct (Nat.eqb_spec c 0); [discriminate|]. lia.
  - intros [= <- <-]. split; auto. apply HB. exact (I1 (rows_len (h :: d))).
Qed.
