(** Reading what [save] wrote. *)
From Coq Require Import String List ZArith NArith Bool Arith Lia.
From Verif Require Import Model.Base Model.Value Model.TableCrate Model.TableOps Model.SaveText Spec.SaveSpec.
Import ListNotations.
Open Scope N_scope.

Definition ends (r : str) : Prop := r = [] \/ exists c l, r = c :: l /\ (c = 44 \/ c = 10).
Definition delimits (body : str -> str -> Prop) : Prop :=
  forall b1 s1 b2 s2 r1 r2, body b1 s1 -> body b2 s2 -> b1 ++ 34 :: r1 = b2 ++ 34 :: r2 -> ends r1 -> ends r2 -> b1 = b2 /\ s1 = s2.

Lemma quote_ends : forall r, ~ ends (34 :: r).
Proof. intros r [E|(c & l & E & [->| ->])]; [discriminate| |]; discriminate. Qed.
Lemma ends_special : forall c r, ends (c :: r) -> special c.
Proof. intros c r [E|(d & l & E & [->| ->])]; [discriminate| |]; injection E as -> _; unfold special; cbn; tauto. Qed.

Lemma doubled_delimits : delimits doubled.
Proof.
  intros b1 s1 b2 s2 r1 r2 D. revert b2 s2. induction D as [|c w s N D IH|w s D IH]; intros b2 s2 D2 E T1 T2.
  - destruct D2 as [|c w s N D2|w s D2]; cbn in E.
    + split; reflexivity.
    + injection E as <- _. contradiction.
    + injection E as ->. destruct (quote_ends _ T1).
  - destruct D2 as [|c2 w2 s2 N2 D2|w2 s2 D2]; cbn in E.
    + injection E as -> _. contradiction.
    + injection E as <- E. destruct (IH _ _ D2 E T1 T2) as (-> & ->). split; reflexivity.
    + injection E as -> _. contradiction.
  - destruct D2 as [|c2 w2 s2 N2 D2|w2 s2 D2]; cbn in E.
    + injection E as <-. destruct (quote_ends _ T2).
    + injection E as <- _. contradiction.
    + injection E as E. destruct (IH _ _ D2 E T1 T2) as (-> & ->). split; reflexivity.
Qed.

Lemma digit_fun : forall d v w, digit_value d v -> digit_value d w -> v = w.
Proof. unfold digit_value. intros. lia. Qed.
Lemma digit_brace : forall v, ~ digit_value 125 v.
Proof. unfold digit_value. intros v. lia. Qed.
Lemma hex_split : forall h1 n c1, hex_value h1 n c1 -> forall h2 c2 r1 r2, hex_value h2 n c2 -> h1 ++ 125 :: r1 = h2 ++ 125 :: r2 -> h1 = h2 /\ c1 = c2 /\ r1 = r2.
Proof.
  intros h1 n c1 H. induction H as [n|d v w n m D H IH]; intros h2 c2 r1 r2 H2 E.
  - destruct H2 as [n|d2 v2 w2 n m D2 H2]; cbn in E.
    + injection E as ->. auto.
    + injection E as <- _. destruct (digit_brace _ D2).
  - destruct H2 as [n|d2 v2 w2 n m2 D2 H2]; cbn in E.
    + injection E as -> _. destruct (digit_brace _ D).
    + injection E as <- E. rewrite (digit_fun _ _ _ D2 D) in H2. destruct (IH _ _ _ _ H2 E) as (-> & -> & ->). auto.
Qed.
Lemma escapes_fun : forall e c d, In (e, c) escapes -> In (e, d) escapes -> c = d.
Proof.
  unfold escapes. cbn. intros e c d H1 H2.
  repeat (destruct H1 as [H1|H1]; [injection H1 as <- <-|]); try contradiction;
  repeat (destruct H2 as [H2|H2]; [injection H2; try (intros; subst; reflexivity); intros; discriminate|]); contradiction.
Qed.
Lemma escapes_u : forall c, ~ In (117, c) escapes.
Proof. unfold escapes. cbn. intros c H. repeat (destruct H as [H|H]; [discriminate|]). contradiction. Qed.
Lemma slashed_delimits : delimits slashed.
Proof.
  intros b1 s1 b2 s2 r1 r2 D. revert b2 s2. induction D as [|c w s N M D IH|e c w s I D IH|h c w s H D IH]; intros b2 s2 D2 E T1 T2.
  - destruct D2 as [|c2 w2 s2 N2 M2 D2|e2 c2 w2 s2 I2 D2|h2 c2 w2 s2 H2 D2]; cbn in E; try discriminate; [split; reflexivity|].
    injection E as <- _. contradiction.
  - destruct D2 as [|c2 w2 s2 N2 M2 D2|e2 c2 w2 s2 I2 D2|h2 c2 w2 s2 H2 D2]; cbn in E; try (injection E as -> _; contradiction).
    injection E as <- E. destruct (IH _ _ D2 E T1 T2) as (-> & ->). split; reflexivity.
  - destruct D2 as [|c2 w2 s2 N2 M2 D2|e2 c2 w2 s2 I2 D2|h2 c2 w2 s2 H2 D2]; cbn in E; try discriminate.
    + injection E as <- _. contradiction.
    + injection E as <- E. destruct (IH _ _ D2 E T1 T2) as (-> & ->). rewrite (escapes_fun _ _ _ I I2). split; reflexivity.
    + injection E as -> _. destruct (escapes_u _ I).
  - destruct D2 as [|c2 w2 s2 N2 M2 D2|e2 c2 w2 s2 I2 D2|h2 c2 w2 s2 H2 D2]; cbn in E; try discriminate.
    + injection E as <- _. contradiction.
    + injection E as <- _. destruct (escapes_u _ I2).
    + injection E as E. rewrite <- !app_assoc in E. cbn in E. destruct (hex_split _ _ _ H _ _ _ _ H2 E) as (-> & -> & E2).
      destruct (IH _ _ D2 E2 T1 T2) as (-> & ->). split; reflexivity.
Qed.

Section Unique.
Variable body : str -> str -> Prop.
Hypothesis HB : delimits body.

Lemma plain_split : forall s1 s2 r1 r2, plain s1 -> plain s2 -> ends r1 -> ends r2 -> s1 ++ r1 = s2 ++ r2 -> s1 = s2 /\ r1 = r2.
Proof.
  induction s1 as [|c s1 IH]; intros [|d s2] r1 r2 P1 P2 T1 T2 E; cbn in E.
  - split; [reflexivity|exact E].
  - subst r1. destruct (P2 d); [left; reflexivity|]. exact (ends_special _ _ T1).
  - subst r2. destruct (P1 c); [left; reflexivity|]. exact (ends_special _ _ T2).
  - injection E as <- E. destruct (IH s2 r1 r2) as (-> & ->); try assumption; [intros x I; apply P1; right; exact I|intros x I; apply P2; right; exact I|split; reflexivity].
Qed.
Lemma plain_quoted : forall s r w q, plain s -> ends r -> s ++ r = 34 :: w ++ q -> False.
Proof.
  intros [|c s] r w q P T E; cbn in E.
  - subst r. exact (quote_ends _ T).
  - injection E as -> _. apply (P 34); [left; reflexivity|]. unfold special. cbn. tauto.
Qed.
Lemma field_split : forall w1 s1 w2 s2 r1 r2, field body w1 s1 -> field body w2 s2 -> ends r1 -> ends r2 -> w1 ++ r1 = w2 ++ r2 ->
  w1 = w2 /\ s1 = s2 /\ r1 = r2.
Proof.
  intros w1 s1 w2 s2 r1 r2 [p1 P1|v1 p1 B1] [p2 P2|v2 p2 B2] T1 T2 E.
  - destruct (plain_split _ _ _ _ P1 P2 T1 T2 E) as (-> & ->). auto.
  - cbn in E. rewrite <- app_assoc in E. destruct (plain_quoted _ _ _ _ P1 T1 E).
  - cbn in E. rewrite <- app_assoc in E. symmetry in E. destruct (plain_quoted _ _ _ _ P2 T2 E).
  - cbn in E. rewrite <- !app_assoc in E. cbn in E. injection E as E. destruct (HB _ _ _ _ _ _ B1 B2 E T1 T2) as (<- & <-).
    apply app_inv_head in E. injection E as <-. auto.
Qed.
Definition breaks (r : str) : Prop := r = [] \/ exists l, r = 10 :: l.
Lemma breaks_ends : forall r, breaks r -> ends r.
Proof. intros r [->|(l & ->)]; [left; reflexivity|right; exists 10, l; auto]. Qed.
Lemma comma_ends : forall r, ends (44 :: r).
Proof. intros r. right. exists 44, r. auto. Qed.
Lemma line_split : forall w1 l1, line body w1 l1 -> forall w2 l2 r1 r2, line body w2 l2 -> breaks r1 -> breaks r2 -> w1 ++ r1 = w2 ++ r2 ->
  w1 = w2 /\ l1 = l2 /\ r1 = r2.
Proof.
  intros w1 l1 H. induction H as [w s F|w s v l F H IH]; intros w2 l2 r1 r2 H2 T1 T2 E.
  - destruct H2 as [w2 s2 F2|w2 s2 v2 l2 F2 H2].
    + destruct (field_split _ _ _ _ _ _ F F2 (breaks_ends _ T1) (breaks_ends _ T2) E) as (-> & -> & ->). auto.
    + rewrite <- app_assoc in E. cbn in E. destruct (field_split _ _ _ _ _ _ F F2 (breaks_ends _ T1) (comma_ends _) E) as (_ & _ & ->).
      destruct T1 as [T1|(l & T1)]; discriminate.
  - destruct H2 as [w2 s2 F2|w2 s2 v2 l2 F2 H2].
    + rewrite <- app_assoc in E. cbn in E. destruct (field_split _ _ _ _ _ _ F F2 (comma_ends _) (breaks_ends _ T2) E) as (_ & _ & <-).
      destruct T2 as [T2|(l0 & T2)]; discriminate.
    + rewrite <- !app_assoc in E. cbn in E. destruct (field_split _ _ _ _ _ _ F F2 (comma_ends _) (comma_ends _) E) as (-> & -> & E2).
      injection E2 as E2. destruct (IH _ _ _ _ H2 T1 T2 E2) as (-> & -> & ->). auto.
Qed.
Lemma nl_breaks : forall r, breaks (10 :: r).
Proof. intros r. right. eexists. reflexivity. Qed.
Lemma file_unique : forall w g1, file body w g1 -> forall g2, file body w g2 -> g1 = g2.
Proof.
  intros w g1 H. induction H as [w l L|w l v g L H IH]; intros g2 H2.
  - inversion H2 as [w2 l2 L2 Ew Eg|w2 l2 v2 g2' L2 H2' Ew Eg]; subst.
    + destruct (line_split _ _ L _ _ [] [] L2) as (_ & -> & _); [left; reflexivity|left; reflexivity|reflexivity|reflexivity].
    + destruct (line_split _ _ L _ _ [] (10 :: v2) L2) as (_ & _ & E); [left; reflexivity|apply nl_breaks|rewrite app_nil_r; reflexivity|discriminate].
  - inversion H2 as [w2 l2 L2 Ew Eg|w2 l2 v2 g2' L2 H2' Ew Eg]; subst.
    + destruct (line_split _ _ L _ _ (10 :: v) [] L2) as (_ & _ & E); [apply nl_breaks|left; reflexivity|rewrite app_nil_r; reflexivity|discriminate].
    + destruct (line_split _ _ L _ _ (10 :: v) (10 :: v2) L2) as (_ & -> & E); [apply nl_breaks|apply nl_breaks|symmetry; exact Ew|]. injection E as ->.
      f_equal. apply IH. exact H2'.
Qed.
End Unique.

Section Written.
Variables (printable extends : N -> bool) (fmt_num : Z -> str) (fmt_ogma : value -> str).
Notation escape_char := (escape_char printable extends).
Notation escape_debug := (escape_debug printable extends).
Notation write_cell := (write_cell printable extends fmt_num fmt_ogma).
Notation write_row := (write_row printable extends fmt_num fmt_ogma).
Notation write_table := (write_table printable extends fmt_num fmt_ogma).
Notation escaped := (escaped printable extends).
Notation has_escaped := (has_escaped printable extends).

(** The text of an entry *)
Notation text_of := (fun e : ent => SaveSpec.text_of fmt_num fmt_ogma (val_of_ent e)).

Lemma digit_ok : forall v, v < 16 -> digit_value (hex_digit v) v.
Proof. intros v L. unfold digit_value, hex_digit. destruct (N.ltb_spec v 10); lia. Qed.
Lemma hex_app : forall h n m, hex_value h n m -> forall d v, digit_value d v -> hex_value (h ++ [d]) n (16 * m + v).
Proof.
  intros h n m H. induction H as [n|d v w n m D H IH]; intros d2 v2 D2; cbn.
  - eapply hex_more; [exact D2|apply hex_end].
  - eapply hex_more; [exact D|apply IH; exact D2].
Qed.
Lemma hex_trans : forall h n m, hex_value h n m -> forall k p, hex_value k m p -> hex_value (h ++ k) n p.
Proof. intros h n m H. induction H as [n|d v w n m D H IH]; intros k p K; cbn; [exact K|eapply hex_more; [exact D|apply IH; exact K]]. Qed.
Lemma hex_digits_ok : forall k n acc m, n < 16 ^ N.of_nat k -> (0 < k)%nat -> hex_value acc n m -> hex_value (hex_digits k n acc) 0 m.
Proof.
  induction k as [|k IH]; intros n acc m L P H; [lia|]. cbn [hex_digits].
  assert (D : digit_value (hex_digit (n mod 16)) (n mod 16)) by (apply digit_ok; apply N.mod_lt; discriminate).
  destruct (N.ltb_spec n 16) as [S|S].
  - eapply hex_more; [exact D|]. rewrite N.mod_small by exact S. exact H.
  - apply IH.
    + apply N.div_lt_upper_bound; [discriminate|]. rewrite Nat2N.inj_succ, N.pow_succ_r' in L. exact L.
    + destruct k; [|lia]. cbn in L. lia.
    + eapply hex_more; [exact D|]. rewrite <- N.div_mod by discriminate. exact H.
Qed.
Lemma size_nat_ok : forall p, N.of_nat (Pos.size_nat p) = N.pos (Pos.size p).
Proof. induction p as [p IH|p IH|]; cbn [Pos.size_nat Pos.size]; [rewrite Nat2N.inj_succ, IH; reflexivity|rewrite Nat2N.inj_succ, IH; reflexivity|reflexivity]. Qed.
Lemma size_ok : forall c, c < 16 ^ N.of_nat (S (N.size_nat c)).
Proof.
  intros c. assert (c < 2 ^ N.of_nat (N.size_nat c)) as L.
  { destruct c as [|p]; [cbn; lia|]. cbn [N.size_nat]. rewrite size_nat_ok. exact (N.size_gt (N.pos p)). }
  rewrite Nat2N.inj_succ. eapply N.lt_le_trans; [exact L|]. change 16 with (2 ^ 4). rewrite <- N.pow_mul_r. apply N.pow_le_mono_r; lia.
Qed.
Lemma unicode_ok : forall c w s, slashed w s -> slashed (escape_unicode c ++ w) (c :: s).
Proof.
  intros c w s H. unfold escape_unicode. rewrite <- !app_assoc. apply slashed_hex; [|exact H].
  apply hex_digits_ok; [apply size_ok|lia|apply hex_end].
Qed.
(** A character is escaped, or not. *)
Lemma char_cases : forall first c,
  (escaped (first = true) c /\ ((exists e, escape_char first c = [92; e] /\ In (e, c) escapes) \/ escape_char first c = escape_unicode c /\ c <> 34 /\ c <> 10 /\ c <> 13)) \/
  (~ escaped (first = true) c /\ escape_char first c = [c]).
Proof.
  intros first c.
  destruct (in_dec N.eq_dec c [0; 9; 10; 13; 34; 39; 92]) as [I|NI].
  - left. split; [left; exact I|]. left. cbn in I. unfold escapes.
    repeat (destruct I as [<-|I]; [eexists; split; [reflexivity|cbn; tauto]|]). destruct I.
  - assert (E : escape_char first c = if first && extends c then escape_unicode c else if printable c then [c] else escape_unicode c).
    { unfold SaveText.escape_char. destruct c as [|p]; [destruct NI; cbn; tauto|].
      repeat (destruct p as [p|p|]; try reflexivity; try (exfalso; apply NI; cbn; tauto)). }
    assert (c <> 34 /\ c <> 10 /\ c <> 13) as X by (repeat split; intros ->; apply NI; cbn; tauto).
    rewrite E. unfold SaveSpec.escaped. destruct first; cbn [andb].
    + destruct (extends c) eqn:X1; [left; split; [right; right; auto|right; auto]|].
      destruct (printable c) eqn:X2; [right; split; [intros [H|[H|(_ & H)]]; congruence|reflexivity]|left; split; [right; left; reflexivity|right; auto]].
    + destruct (printable c) eqn:X2; [right; split; [intros [H|[H|(H & _)]]; congruence|reflexivity]|left; split; [right; left; reflexivity|right; auto]].
Qed.
Lemma char_ok : forall first c w s, slashed w s -> slashed (escape_char first c ++ w) (c :: s).
Proof.
  intros first c w s H. destruct (char_cases first c) as [(_ & [(e & -> & I)|(-> & _)])|(N & ->)].
  - cbn. apply slashed_esc; assumption.
  - apply unicode_ok. exact H.
  - cbn. apply slashed_char; [intros ->; apply N; left; cbn; tauto|intros ->; apply N; left; cbn; tauto|exact H].
Qed.
Lemma rest_ok : forall s, slashed (flat_map (escape_char false) s) s.
Proof. induction s as [|c s IH]; [apply slashed_end|]. cbn [flat_map]. apply char_ok. exact IH. Qed.
Lemma escape_ok : forall s, slashed (escape_debug s) s.
Proof. intros [|c s]; [apply slashed_end|]. cbn [SaveText.escape_debug]. apply char_ok. apply rest_ok. Qed.

Lemma quoted_iff : forall c, quoted_for c = true <-> special c.
Proof. intros c. unfold quoted_for, special. rewrite !orb_true_iff, !N.eqb_eq. cbn. split; intros H; repeat destruct H as [H|H]; auto; contradiction. Qed.
Lemma quoted_plain : forall s, existsb quoted_for s = false <-> plain s.
Proof.
  intros s. split.
  - intros E c I S. apply quoted_iff in S. assert (existsb quoted_for s = true) by (apply existsb_exists; eauto). congruence.
  - intros P. destruct (existsb quoted_for s) eqn:E; [|reflexivity]. apply existsb_exists in E as (c & I & S). apply quoted_iff in S. destruct (P c I S).
Qed.
Lemma cell_is : forall e, write_cell e = if existsb quoted_for (text_of e) then [34] ++ escape_debug (text_of e) ++ [34] else text_of e.
Proof. intros [|n|v]; [reflexivity|reflexivity|]. destruct v as [|[|]| | | | |]; reflexivity. Qed.
Lemma cell_ok : forall e, field slashed (write_cell e) (text_of e).
Proof.
  intros e. rewrite cell_is. destruct (existsb quoted_for (text_of e)) eqn:E.
  - apply field_quoted. apply escape_ok.
  - apply field_plain. apply quoted_plain. exact E.
Qed.

(** Lines and files as a whole *)
Fixpoint joined (c : N) (ws : list str) : str := match ws with [] => [] | [w] => w | w :: ws => w ++ [c] ++ joined c ws end.
Lemma row_more : forall r w, fst (fold_left (fun st e => ((if snd st : bool then fst st ++ [44] else fst st) ++ write_cell e, true)) r (w, true)) =
  w ++ flat_map (fun e => 44 :: write_cell e) r.
Proof.
  induction r as [|e r IH]; intros w; cbn [fold_left flat_map fst snd]; [symmetry; apply app_nil_r|]. rewrite IH. rewrite <- !app_assoc. reflexivity.
Qed.
Lemma joined_more : forall c w ws, joined c (w :: ws) = w ++ flat_map (fun v => c :: v) ws.
Proof.
  intros c w ws. revert w. induction ws as [|v ws IH]; intros w; [cbn; symmetry; apply app_nil_r|].
  change (joined c (w :: v :: ws)) with (w ++ [c] ++ joined c (v :: ws)). rewrite IH. reflexivity.
Qed.
Lemma flat_map_map : forall X Y Z (f : Y -> list Z) (g : X -> Y) l, flat_map f (map g l) = flat_map (fun x => f (g x)) l.
Proof. induction l as [|x l IH]; [reflexivity|]. cbn. rewrite IH. reflexivity. Qed.
Lemma row_is : forall r w, write_row r w = w ++ joined 44 (map write_cell r).
Proof.
  intros [|e r] w; unfold SaveText.write_row; cbn [fold_left]; [symmetry; apply app_nil_r|]. cbn [fst snd]. rewrite row_more. cbn [map].
  rewrite joined_more, flat_map_map, <- app_assoc. reflexivity.
Qed.
Lemma table_more : forall t w, fst (fold_left (fun st r => (write_row r (if snd st : bool then fst st ++ [10] else fst st), true)) t (w, true)) =
  w ++ flat_map (fun r => 10 :: joined 44 (map write_cell r)) t.
Proof.
  induction t as [|r t IH]; intros w; cbn [fold_left flat_map fst snd]; [symmetry; apply app_nil_r|]. rewrite IH, row_is. rewrite <- !app_assoc. reflexivity.
Qed.
Lemma table_is : forall t, write_table t = joined 10 (map (fun r => joined 44 (map write_cell r)) t).
Proof.
  intros [|r t]; [reflexivity|]. unfold SaveText.write_table. cbn [fold_left fst snd]. rewrite table_more, row_is. cbn [map app].
  rewrite joined_more, flat_map_map. reflexivity.
Qed.
Notation texts := (SaveSpec.texts fmt_num fmt_ogma).

Lemma line_ok : forall r, r <> [] -> line slashed (joined 44 (map write_cell r)) (map text_of r).
Proof.
  induction r as [|e r IH]; intros N; [contradiction|]. destruct r as [|f r]; [apply line_last; apply cell_ok|].
  change (joined 44 (map write_cell (e :: f :: r))) with (write_cell e ++ [44] ++ joined 44 (map write_cell (f :: r))).
  apply line_more; [apply cell_ok|apply IH; discriminate].
Qed.
Lemma file_ok : forall t, t <> [] -> Forall (fun r => r <> []) t -> file slashed (write_table t) (texts t).
Proof.
  intros t N F. rewrite table_is. induction F as [|r t Nr F IH]; [contradiction|]. destruct t as [|q t]; [apply file_last; apply line_ok; exact Nr|].
  change (joined 10 (map (fun r => joined 44 (map write_cell r)) (r :: q :: t))) with
    (joined 44 (map write_cell r) ++ [10] ++ joined 10 (map (fun r => joined 44 (map write_cell r)) (q :: t))).
  apply file_more; [apply line_ok; exact Nr|apply IH; discriminate].
Qed.
Lemma slashed_unique : forall w g1 g2, file slashed w g1 -> file slashed w g2 -> g1 = g2.
Proof. intros w g1 g2 H1 H2. exact (file_unique slashed slashed_delimits w g1 H1 g2 H2). Qed.
Lemma doubled_unique : forall w g1 g2, file doubled w g1 -> file doubled w g2 -> g1 = g2.
Proof. intros w g1 g2 H1 H2. exact (file_unique doubled doubled_delimits w g1 H1 g2 H2). Qed.

(** ** Standard readers *)
Lemma drift : forall s b k r1 r2, doubled b s -> b ++ 34 :: r1 = repeat 92 (S k) ++ flat_map (escape_char false) s ++ 34 :: r2 -> False.
Proof.
  induction s as [|c s IH]; intros b k r1 r2 D E; inversion D as [|c' w s' N D'|w s' D']; subst; cbn in E; try discriminate.
  injection E as -> E. eapply (IH w (S k)); [exact D'|]. rewrite E.
  change (escape_char false 92) with [92; 92]. cbn [app]. clear.
  assert (X : forall k q, repeat 92 k ++ 92 :: 92 :: q = 92 :: 92 :: repeat 92 k ++ q).
  { intros j. induction j as [|j J]; intros q; [reflexivity|]. cbn [repeat app]. rewrite J. reflexivity. }
  rewrite X. reflexivity.
Qed.
Lemma drift_first : forall first c s b r1 r2, doubled b (c :: s) -> b ++ 34 :: r1 = (escape_char first c ++ flat_map (escape_char false) s) ++ 34 :: r2 ->
  ~ escaped (first = true) c /\ exists b', b = c :: b' /\ doubled b' s /\ b' ++ 34 :: r1 = flat_map (escape_char false) s ++ 34 :: r2.
Proof.
  intros first c s b r1 r2 D E. destruct (char_cases first c) as [(_ & [(e & X & I)|(X & N1 & _)])|(N & X)]; rewrite X in E.
  - exfalso. inversion D as [|c' w s' N D'|w s' D']; subst; cbn in E; [|discriminate].
    injection E as -> E. assert (e = 92) as ->.
    { unfold escapes in I. cbn in I. repeat (destruct I as [I|I]; [injection I; intros; try discriminate; congruence|]). destruct I. }
    exact (drift s w 0 r1 r2 D' E).
  - exfalso. inversion D as [|c' w s' N D'|w s' D']; subst; [|contradiction]. unfold escape_unicode in E. cbn in E.
    injection E as -> E. discriminate.
  - inversion D as [|c' w s' N' D'|w s' D']; subst.
    + cbn in E. injection E as E. split; [exact N|]. eexists. eauto.
    + exfalso. apply N. left. cbn. tauto.
Qed.
Lemma drift_rest : forall s b r1 r2, doubled b s -> b ++ 34 :: r1 = flat_map (escape_char false) s ++ 34 :: r2 -> ~ exists c, In c s /\ escaped False c.
Proof.
  induction s as [|c s IH]; intros b r1 r2 D E; [intros (c & [] & _)|]. cbn [flat_map] in E.
  destruct (drift_first false c s b r1 r2 D E) as (N & b' & _ & D' & E'). intros (d & [<-|I] & X).
  - apply N. destruct X as [X|[X|([] & _)]]; [left; exact X|right; left; exact X].
  - apply (IH b' r1 r2 D' E'). eauto.
Qed.
Lemma drift_all : forall s b r1 r2, doubled b s -> b ++ 34 :: r1 = escape_debug s ++ 34 :: r2 -> ~ has_escaped s.
Proof.
  intros [|c s] b r1 r2 D E; [intros ([|i] & d & I & _); discriminate|]. cbn [SaveText.escape_debug] in E.
  destruct (drift_first true c s b r1 r2 D E) as (N & b' & _ & D' & E'). intros ([|i] & d & I & X); cbn in I.
  - injection I as <-. apply N. destruct X as [X|[X|(_ & X)]]; [left; exact X|right; left; exact X|right; right; auto].
  - apply (drift_rest s b' r1 r2 D' E'). exists d. split; [exact (nth_error_In _ _ I)|]. destruct X as [X|[X|(X & _)]]; [left; exact X|right; left; exact X|discriminate].
Qed.
Lemma same_char : forall first c, ~ escaped (first = true) c -> escape_char first c = [c].
Proof. intros first c N. destruct (char_cases first c) as [(X & _)|(_ & X)]; [contradiction|exact X]. Qed.
Lemma same_rest : forall s, (forall c, In c s -> ~ escaped False c) -> flat_map (escape_char false) s = s.
Proof.
  induction s as [|c s IH]; intros H; [reflexivity|]. cbn [flat_map]. rewrite same_char, IH; [reflexivity| |].
  - intros d I. apply H. right. exact I.
  - intros X. apply (H c); [left; reflexivity|]. destruct X as [X|[X|(X & _)]]; [left; exact X|right; left; exact X|discriminate].
Qed.
Lemma same_all : forall s, ~ has_escaped s -> escape_debug s = s /\ doubled s s.
Proof.
  intros s N. split.
  - destruct s as [|c s]; [reflexivity|]. cbn [SaveText.escape_debug]. rewrite same_char, same_rest; [reflexivity| |].
    + intros d I X. apply N. apply In_nth_error in I as (i & I). exists (S i), d. split; [exact I|]. destruct X as [X|[X|([] & _)]]; [left; exact X|right; left; exact X].
    + intros X. apply N. exists 0%nat, c. split; [reflexivity|]. destruct X as [X|[X|(_ & X)]]; [left; exact X|right; left; exact X|right; right; auto].
  - assert (Q : ~ In 34 s).
    { intros I. apply N. apply In_nth_error in I as (i & I). exists i, 34. split; [exact I|]. left. cbn. tauto. }
    clear N. induction s as [|c s IH]; [apply doubled_end|]. apply doubled_char; [intros ->; apply Q; left; reflexivity|]. apply IH. intros I. apply Q. right. exact I.
Qed.
(** What a standard reader makes of a cell *)
Definition standard (s : str) : Prop := plain s \/ ~ has_escaped s.
Lemma cell_standard : forall e w r1 r2, field doubled w (text_of e) -> ends r1 -> ends r2 -> w ++ r1 = write_cell e ++ r2 -> standard (text_of e) /\ w = write_cell e /\ r1 = r2.
Proof.
  intros e w r1 r2 F T1 T2 E. rewrite cell_is in *. destruct (existsb quoted_for (text_of e)) eqn:Q.
  - destruct F as [s P|b s B]; [apply quoted_plain in P; congruence|].
    cbn in E. rewrite <- !app_assoc in E. injection E as E. cbn in E. pose proof (drift_all _ _ _ _ B E) as N. split; [right; exact N|].
    destruct (same_all _ N) as (X & D). rewrite X in *. destruct (doubled_delimits _ _ _ _ _ _ B D E T1 T2) as (-> & _). split; [reflexivity|].
    apply app_inv_head in E. injection E as ->. reflexivity.
  - apply quoted_plain in Q. split; [left; exact Q|]. destruct F as [s P|b s B].
    + split; [reflexivity|]. apply app_inv_head in E. exact E.
    + exfalso. cbn in E. rewrite <- app_assoc in E. symmetry in E. exact (plain_quoted _ _ _ _ Q T2 E).
Qed.
Lemma row_standard : forall r w r1 r2, line doubled w (map text_of r) -> breaks r1 -> breaks r2 -> w ++ r1 = joined 44 (map write_cell r) ++ r2 ->
  Forall (fun e => standard (text_of e)) r /\ r1 = r2.
Proof.
  induction r as [|e r IH]; intros w r1 r2 L T1 T2 E; [inversion L|].
  destruct r as [|f r].
  - cbn in E. inversion L as [v s F|v s v' l F L']; subst; [|inversion L'].
    destruct (cell_standard e w r1 r2 F (breaks_ends _ T1) (breaks_ends _ T2) E) as (S & _ & X). auto.
  - change (joined 44 (map write_cell (e :: f :: r))) with (write_cell e ++ [44] ++ joined 44 (map write_cell (f :: r))) in E.
    inversion L as [v s F|v s v' l F L']; subst. rewrite <- !app_assoc in E. cbn [app] in E.
    destruct (cell_standard e v _ _ F (comma_ends _) (comma_ends _) E) as (S & _ & X). injection X as X.
    destruct (IH v' r1 r2 L' T1 T2 X) as (A & B). auto.
Qed.
Lemma table_standard : forall t w, file doubled w (texts t) -> w = write_table t -> Forall (Forall (fun e => standard (text_of e))) t.
Proof.
  intros t w F E. rewrite table_is in E. revert w F E. induction t as [|r t IH]; intros w F E; [constructor|]. destruct t as [|q t].
  - cbn in E. inversion F as [v l L|v l v' g L F']; subst; [|inversion F'].
    destruct (row_standard r _ [] [] L) as (A & _); [left; reflexivity|left; reflexivity|reflexivity|]. constructor; [exact A|constructor].
  - change (joined 10 (map (fun r => joined 44 (map write_cell r)) (r :: q :: t))) with
      (joined 44 (map write_cell r) ++ [10] ++ joined 10 (map (fun r => joined 44 (map write_cell r)) (q :: t))) in E.
    inversion F as [v l L|v l v' g L F' Ew Eg]; subst.
    destruct (row_standard r v (10 :: v') (10 :: joined 10 (map (fun r => joined 44 (map write_cell r)) (q :: t))) L) as (A & B); [apply nl_breaks|apply nl_breaks|assumption|].
    injection B as B. constructor; [exact A|]. apply (IH v'); [exact F'|exact B].
Qed.
Lemma cell_back : forall e, standard (text_of e) -> field doubled (write_cell e) (text_of e).
Proof.
  intros e S. rewrite cell_is. destruct (existsb quoted_for (text_of e)) eqn:Q.
  - destruct S as [S|S]; [apply quoted_plain in S; congruence|]. destruct (same_all _ S) as (-> & D). apply field_quoted. exact D.
  - apply field_plain. apply quoted_plain. exact Q.
Qed.
Lemma row_back : forall r, r <> [] -> Forall (fun e => standard (text_of e)) r -> line doubled (joined 44 (map write_cell r)) (map text_of r).
Proof.
  intros r N F. induction F as [|e r S F IH]; [contradiction|]. destruct r as [|f r]; [apply line_last; apply cell_back; exact S|].
  change (joined 44 (map write_cell (e :: f :: r))) with (write_cell e ++ [44] ++ joined 44 (map write_cell (f :: r))).
  apply line_more; [apply cell_back; exact S|apply IH; discriminate].
Qed.
Lemma table_back : forall t, t <> [] -> Forall (fun r => r <> []) t -> Forall (Forall (fun e => standard (text_of e))) t -> file doubled (write_table t) (texts t).
Proof.
  intros t N F G. rewrite table_is. induction F as [|r t Nr F IH]; [contradiction|]. inversion G as [|r' t' Gr Gt]; subst.
  destruct t as [|q t]; [apply file_last; apply row_back; assumption|].
  change (joined 10 (map (fun r => joined 44 (map write_cell r)) (r :: q :: t))) with
    (joined 44 (map write_cell r) ++ [10] ++ joined 10 (map (fun r => joined 44 (map write_cell r)) (q :: t))).
  apply file_more; [apply row_back; assumption|apply IH; [discriminate|exact Gt]].
Qed.
Lemma standard_iff : forall t, t <> [] -> Forall (fun r => r <> []) t ->
  (file doubled (write_table t) (texts t) <-> forall r e, In r t -> In e r -> plain (text_of e) \/ ~ has_escaped (text_of e)).
Proof.
  intros t N F. split.
  - intros H r e Ir Ie. pose proof (table_standard t _ H eq_refl) as G. rewrite Forall_forall in G. specialize (G r Ir). rewrite Forall_forall in G. exact (G e Ie).
  - intros H. apply table_back; [exact N|exact F|]. apply Forall_forall. intros r Ir. apply Forall_forall. intros e Ie. exact (H r e Ir Ie).
Qed.

(** ** Lines *)
Lemma hex_no : forall k n acc c, In c (hex_digits k n acc) -> In c acc \/ (48 <= c).
Proof.
  induction k as [|k IH]; intros n acc c I; [left; exact I|]. cbn [hex_digits] in I.
  assert (D : 48 <= hex_digit (n mod 16)) by (unfold hex_digit; generalize (n mod 16); intros m; destruct (m <? 10); lia).
  destruct (n <? 16).
  - destruct I as [<-|I]; [right; exact D|left; exact I].
  - destruct (IH _ _ _ I) as [[<-|J]|J]; [right; exact D|left; exact J|right; exact J].
Qed.
Lemma char_no_break : forall first c d, In d (escape_char first c) -> d <> 10 /\ d <> 13.
Proof.
  intros first c d I. destruct (char_cases first c) as [(_ & [(e & X & J)|(X & _)])|(N & X)]; rewrite X in I.
  - cbn in I. destruct I as [<-|[<-|[]]]; [split; discriminate|]. unfold escapes in J. cbn in J.
    repeat (destruct J as [J|J]; [injection J as <- _; split; discriminate|]). destruct J.
  - unfold escape_unicode in I. apply in_app_iff in I as [I|I]; [cbn in I; repeat (destruct I as [<-|I]; [split; discriminate|]); destruct I|].
    apply in_app_iff in I as [I|I]; [|cbn in I; destruct I as [<-|[]]; split; discriminate].
    apply hex_no in I as [[]|I]. lia.
  - destruct I as [<-|[]]. split; intros ->; apply N; left; cbn; tauto.
Qed.
Lemma cell_no_break : forall e d, In d (write_cell e) -> d <> 10 /\ d <> 13.
Proof.
  intros e d I. rewrite cell_is in I. destruct (existsb quoted_for (text_of e)) eqn:Q.
  - apply in_app_iff in I as [I|I]; [destruct I as [<-|[]]; split; discriminate|].
    apply in_app_iff in I as [I|I]; [|destruct I as [<-|[]]; split; discriminate].
    destruct (text_of e) as [|c s]; [destruct I|]. cbn [SaveText.escape_debug] in I. apply in_app_iff in I as [I|I]; [exact (char_no_break _ _ _ I)|].
    apply in_flat_map in I as (x & _ & I). exact (char_no_break _ _ _ I).
  - apply quoted_plain in Q. split; intros ->; apply (Q _ I); unfold special; cbn; tauto.
Qed.
Lemma row_no_break : forall r d, In d (joined 44 (map write_cell r)) -> d <> 10 /\ d <> 13.
Proof.
  intros [|e r] d I; [destruct I|]. cbn [map] in I. rewrite joined_more, flat_map_map in I. apply in_app_iff in I as [I|I]; [exact (cell_no_break _ _ I)|].
  apply in_flat_map in I as (x & _ & [<-|I]); [split; discriminate|exact (cell_no_break _ _ I)].
Qed.
Lemma count_none : forall c s, ~ In c s -> times c s = 0%nat.
Proof. intros c s N. unfold times. apply count_occ_not_In. exact N. Qed.
Lemma times_app : forall c a b, times c (a ++ b) = (times c a + times c b)%nat.
Proof. intros c a b. unfold times. apply count_occ_app. Qed.
Lemma lines_ok : forall t, t <> [] -> S (times 10 (write_table t)) = length t /\ times 13 (write_table t) = 0%nat.
Proof.
  intros t N. rewrite table_is. induction t as [|r t IH]; [contradiction|].
  assert (R : forall d, d = 10 \/ d = 13 -> times d (joined 44 (map write_cell r)) = 0%nat).
  { intros d H. apply count_none. intros I. apply row_no_break in I. destruct H as [->| ->], I; congruence. }
  destruct t as [|q t]; [cbn [map joined length]; rewrite !R by auto; auto|].
  change (joined 10 (map (fun r => joined 44 (map write_cell r)) (r :: q :: t))) with
    (joined 44 (map write_cell r) ++ [10] ++ joined 10 (map (fun r => joined 44 (map write_cell r)) (q :: t))).
  destruct IH as (A & B); [discriminate|]. rewrite !times_app, !R by auto. rewrite B. cbn [length] in *. rewrite <- A. split; reflexivity.
Qed.
End Written.
