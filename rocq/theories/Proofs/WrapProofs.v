From Coq Require Import List NArith Bool Arith Lia.
From Verif Require Import Model.Base Model.Wrap Spec.WrapSpec.
Import ListNotations.

Section P.
  Variable St : Type.
  Variable chw : N -> nat.
  Notation cell := (N * St)%type.
  Notation lines := (lines St).
  Notation rows_of := (rows_of St chw).
  Notation wide := (wide St chw).

  Definition tail_row (s : list cell) : list (list cell) :=
    match rev s with c :: _ => if is_nl c then [[]] else [] | [] => [] end.

  Lemma nl_eq : forall c : cell, is_nl c = true <-> fst c = 10%N.
  Proof. intros c. unfold is_nl. apply N.eqb_eq. Qed.

  Lemma tail_app : forall a b : list cell, b <> [] -> tail_row (a ++ b) = tail_row b.
  Proof.
    intros a b Hb. unfold tail_row. rewrite rev_app_distr. destruct (rev b) eqn:E; [|reflexivity].
    exfalso. apply Hb. rewrite <- (rev_involutive b), E. reflexivity.
  Qed.

  Lemma lines_of_last : forall l : list cell, l <> [] -> ~ In 10%N (plain St l) -> lines_of l = [l].
  Proof.
    induction l as [|c l IH]; intros Hn Hi; [congruence|]. cbn [lines_of].
    destruct (is_nl c) eqn:E; [exfalso; apply Hi; left; apply nl_eq; exact E|].
    assert (Hi' : ~ In 10%N (plain St l)) by (intros X; apply Hi; right; exact X).
    destruct l as [|d l]; [rewrite andb_false_r; reflexivity|].
    assert (is_nl d = false) as Ed.
    { destruct (is_nl d) eqn:Ed; [|reflexivity]. exfalso. apply Hi'. left. apply nl_eq. exact Ed. }
    rewrite Ed, andb_false_r, IH by (congruence || exact Hi'). reflexivity.
  Qed.

  Lemma lines_of_nl : forall l a (s : list cell), ~ In 10%N (plain St l) -> (forall l' b, l <> l' ++ [(13%N, b)]) ->
    lines_of (l ++ (10%N, a) :: s) = l :: lines_of s.
  Proof.
    induction l as [|c l IH]; intros a s Hi Hc; [reflexivity|]. cbn [app lines_of].
    destruct (is_nl c) eqn:E; [exfalso; apply Hi; left; apply nl_eq; exact E|].
    assert (Hi' : ~ In 10%N (plain St l)) by (intros X; apply Hi; right; exact X).
    rewrite IH; [|exact Hi'|intros l' b X; apply (Hc (c :: l') b); rewrite X; reflexivity].
    assert (is_cr c && match l ++ (10%N, a) :: s with d :: _ => is_nl d | [] => false end = false) as Q.
    { destruct l as [|d l]; cbn [app].
      - destruct (is_cr c) eqn:Ec; [|reflexivity]. exfalso. apply N.eqb_eq in Ec. destruct c as [c b]. cbn in Ec. subst c.
        apply (Hc [] b). reflexivity.
      - destruct (is_nl d) eqn:Ed; [|apply andb_false_r]. exfalso. apply Hi'. left. apply nl_eq. exact Ed. }
    rewrite Q. reflexivity.
  Qed.

  Lemma lines_of_crnl : forall l a b (s : list cell), ~ In 10%N (plain St l) ->
    lines_of (l ++ (13%N, b) :: (10%N, a) :: s) = l :: lines_of s.
  Proof.
    induction l as [|c l IH]; intros a b s Hi; [reflexivity|]. cbn [app lines_of].
    destruct (is_nl c) eqn:E; [exfalso; apply Hi; left; apply nl_eq; exact E|].
    assert (Hi' : ~ In 10%N (plain St l)) by (intros X; apply Hi; right; exact X).
    rewrite IH by exact Hi'.
    assert (match l ++ (13%N, b) :: (10%N, a) :: s with d :: _ => is_nl d | [] => false end = false) as Q.
    { destruct l as [|d l]; cbn [app]; [reflexivity|].
      destruct (is_nl d) eqn:Ed; [|reflexivity]. exfalso. apply Hi'. left. apply nl_eq. exact Ed. }
    rewrite Q, andb_false_r. reflexivity.
  Qed.

  Lemma lines_model : forall s ls, lines s ls -> s <> [] -> lines_of s ++ tail_row s = ls.
  Proof.
    assert (T : forall s ls, lines s ls -> s = [] -> ls = [[]]).
    { intros s ls H E. destruct H as [l Hi|l a s ls Hi Hc H|l a b s ls Hi H];
        [subst; reflexivity| |]; exfalso; destruct l; discriminate E. }
    intros s ls H. induction H as [l Hi|l a s ls Hi Hc H IH|l a b s ls Hi H IH]; intros Hs.
    - rewrite lines_of_last by assumption. unfold tail_row. destruct (rev l) as [|c r] eqn:E; [reflexivity|].
      destruct (is_nl c) eqn:Ec; [|reflexivity]. exfalso. apply Hi. apply nl_eq in Ec. rewrite <- Ec. apply in_map.
      apply in_rev. rewrite E. left. reflexivity.
    - rewrite lines_of_nl by assumption. rewrite tail_app by discriminate. cbn [app]. f_equal.
      destruct s as [|d s].
      + symmetry. apply (T _ _ H eq_refl).
      + change ((10%N, a) :: d :: s) with ([(10%N, a)] ++ d :: s). rewrite tail_app by discriminate. apply IH. discriminate.
    - rewrite lines_of_crnl by assumption. rewrite tail_app by discriminate. cbn [app]. f_equal.
      destruct s as [|d s].
      + symmetry. apply (T _ _ H eq_refl).
      + change ((13%N, b) :: (10%N, a) :: d :: s) with ([(13%N, b); (10%N, a)] ++ d :: s). rewrite tail_app by discriminate. apply IH. discriminate.
  Qed.

  Lemma lines_cons : forall c s l ls, lines s (l :: ls) -> is_nl c = false ->
    is_cr c && match s with d :: _ => is_nl d | [] => false end = false -> lines (c :: s) ((c :: l) :: ls).
  Proof.
    intros c s l ls H Hn Hc.
    assert (N0 : forall l0, ~ In 10%N (plain St l0) -> ~ In 10%N (plain St (c :: l0))).
    { intros l0 Hi [X|X]; [|exact (Hi X)]. apply nl_eq in X. congruence. }
    inversion H as [l0 Hi E1 E2|l0 a s0 ls0 Hi Hl H0 E1 E2|l0 a b s0 ls0 Hi H0 E1 E2]; subst.
    - apply lines_last. apply N0. exact Hi.
    - apply (lines_nl St (c :: l)); [apply N0; exact Hi| |exact H0].
      intros l' b X. destruct l' as [|c' l'].
      + cbn in X. injection X as X1 X2. subst. cbn in Hc. discriminate Hc.
      + cbn in X. injection X as X1 X2. apply (Hl _ _ X2).
    - apply (lines_crnl St (c :: l)); [apply N0; exact Hi|exact H0].
  Qed.

  Lemma lines_exist : forall s, exists l ls, lines s (l :: ls).
  Proof.
    induction s as [|c s (l & ls & IH)].
    - exists [], []. apply lines_last. intros [].
    - destruct (is_nl c) eqn:En.
      + exists [], (l :: ls). destruct c as [c a]. apply nl_eq in En. cbn in En. subst c.
        apply (lines_nl St []); [intros []| |exact IH]. intros l' b X. destruct l'; discriminate X.
      + destruct (is_cr c && match s with d :: _ => is_nl d | [] => false end) eqn:Ec.
        * apply andb_true_iff in Ec. destruct Ec as [Ec Es]. destruct s as [|d s]; [discriminate Es|].
          destruct c as [c b]. apply N.eqb_eq in Ec. cbn in Ec. subst c.
          destruct d as [d a]. apply nl_eq in Es. cbn in Es. subst d.
          exists [], ls.
          inversion IH as [l0 Hi E1 E2|l0 a' s0 ls0 Hi Hl H0 E1 E2|l0 a' b' s0 ls0 Hi H0 E1 E2]; subst.
          -- exfalso. apply Hi. left. reflexivity.
          -- destruct l as [|x l]; [|exfalso; injection E1 as X1 X2; subst; apply Hi; left; reflexivity].
             injection E1 as X1 X2; subst. apply (lines_crnl St []); [intros []|exact H0].
          -- destruct l as [|x l]; [discriminate E1|exfalso; injection E1 as X1 X2; subst; apply Hi; left; reflexivity].
        * exists (c :: l), ls. apply lines_cons; assumption.
  Qed.

  Lemma wide_app : forall a b, wide (a ++ b) = wide a + wide b.
  Proof. intros a b. unfold WrapSpec.wide, plain. rewrite !map_app, list_sum_app. reflexivity. Qed.

  Lemma wrap_head : forall width (cs : list cell) w row, exists x rest, wrap chw width w row cs = (row ++ x) :: rest.
  Proof.
    induction cs as [|c cs IH]; intros w row; cbn [wrap].
    - exists [], []. rewrite app_nil_r. reflexivity.
    - destruct (Nat.ltb width (w + chw (fst c))).
      + exists [], (wrap chw width (chw (fst c)) [c] cs). rewrite app_nil_r. reflexivity.
      + destruct (IH (w + chw (fst c)) (row ++ [c])) as (x & rest & E). exists (c :: x), rest. rewrite E, <- app_assoc. reflexivity.
  Qed.

  Lemma wrap_concat : forall width (cs : list cell) w row, concat (wrap chw width w row cs) = row ++ cs.
  Proof.
    induction cs as [|c cs IH]; intros w row; cbn [wrap].
    - reflexivity.
    - destruct (Nat.ltb width (w + chw (fst c))); cbn [concat]; rewrite IH; [reflexivity|rewrite <- app_assoc; reflexivity].
  Qed.

  Lemma wrap_filled : forall width (cs : list cell) w row, w = wide row -> filled St chw width (wrap chw width w row cs).
  Proof.
    induction cs as [|c cs IH]; intros w row Hw; cbn [wrap].
    - apply filled_last.
    - destruct (Nat.ltb width (w + chw (fst c))) eqn:E.
      + apply Nat.ltb_lt in E.
        specialize (IH (chw (fst c)) [c] ltac:(unfold WrapSpec.wide; cbn; lia)).
        destruct (wrap_head width cs (chw (fst c)) [c]) as (x & rest & Q). rewrite Q in IH |- *.
        apply filled_next; [lia|exact IH].
      + apply IH. rewrite wide_app. unfold WrapSpec.wide at 2. cbn. lia.
  Qed.

  Lemma wrap_fits : forall width (cs : list cell) w row, w = wide row -> w <= width -> (forall c, In c cs -> chw (fst c) <= width) ->
    forall r, In r (wrap chw width w row cs) -> wide r <= width.
  Proof.
    induction cs as [|c cs IH]; intros w row Hw Hl Hc r Hr; cbn [wrap] in Hr.
    - destruct Hr as [<-|[]]. lia.
    - destruct (Nat.ltb width (w + chw (fst c))) eqn:E.
      + destruct Hr as [<-|Hr]; [lia|].
        apply (IH (chw (fst c)) [c]); [unfold WrapSpec.wide; cbn; lia|apply Hc; left; reflexivity|intros d Hd; apply Hc; right; exact Hd|exact Hr].
      + apply Nat.ltb_ge in E. apply (IH (w + chw (fst c)) (row ++ [c])); [rewrite wide_app; unfold WrapSpec.wide at 2; cbn; lia|exact E|intros d Hd; apply Hc; right; exact Hd|exact Hr].
  Qed.

  Lemma wrap_rows : forall width l, rows_of width l (wrap (St:=St) chw width 0 [] l).
  Proof.
    intros width l. split; [apply wrap_concat|]. split; [apply wrap_filled; reflexivity|].
    intros Hc. apply wrap_fits; [reflexivity|lia|exact Hc].
  Qed.

  Lemma show_looks : forall r, looks St r (flat_map (@show_cell St) r).
  Proof.
    induction r as [|[c a] r IH]; cbn [flat_map]; [apply looks_nil|].
    unfold show_cell at 1. cbn [fst snd]. destruct (N.eqb c 9) eqn:E.
    - apply N.eqb_eq in E. subst c. cbn. apply looks_tab. exact IH.
    - apply N.eqb_neq in E. cbn. apply looks_char; assumption.
  Qed.

  Lemma convert_rows : forall width s ls, lines s ls -> s <> [] ->
    convert chw width s = concat (map (fun l => map (flat_map (@show_cell St)) (wrap (St:=St) chw width 0 [] l)) ls).
  Proof.
    intros width s ls H Hs. rewrite <- (lines_model s ls H Hs). unfold convert. fold (tail_row s).
    rewrite map_app, concat_app. f_equal.
    - rewrite flat_map_concat_map, concat_map, map_map. reflexivity.
    - unfold tail_row. destruct (rev s) as [|c r]; [reflexivity|]. destruct (is_nl c); reflexivity.
  Qed.

  Lemma text_proof : forall width s ls, lines s ls -> s <> [] ->
    exists groups, convert chw width s = concat groups /\ Forall2 (shown_rows_of St chw width) ls groups.
  Proof.
    intros width s ls H Hs. eexists. split; [apply (convert_rows width s ls H Hs)|].
    clear H. induction ls as [|l ls IH]; [constructor|]. cbn [map]. constructor; [|exact IH].
    exists (wrap (St:=St) chw width 0 [] l). split; [apply wrap_rows|].
    induction (wrap (St:=St) chw width 0 [] l) as [|r rs IHr]; constructor; [apply show_looks|exact IHr].
  Qed.

  Lemma text_total : forall width s, s <> [] ->
    exists ls groups, lines s ls /\ convert chw width s = concat groups /\ Forall2 (shown_rows_of St chw width) ls groups.
  Proof.
    intros width s Hs. destruct (lines_exist s) as (l & ls & H).
    destruct (text_proof width s _ H Hs) as (groups & G1 & G2). exists (l :: ls), groups. split; [exact H|]. split; assumption.
  Qed.

  Lemma lines_unique : forall s ls ls', lines s ls -> lines s ls' -> ls = ls'.
  Proof.
    intros s ls ls' H H'. destruct s as [|c s].
    - assert (Q : forall s ls, lines s ls -> s = [] -> ls = [[]]).
      { intros s0 ls0 H0 E. destruct H0 as [l Hi|l a s ls0 Hi Hc H0|l a b s ls0 Hi H0]; [subst; reflexivity| |]; exfalso; destruct l; discriminate E. }
      rewrite (Q _ _ H eq_refl), (Q _ _ H' eq_refl). reflexivity.
    - rewrite <- (lines_model _ _ H), <- (lines_model _ _ H'); [reflexivity| |]; discriminate.
  Qed.

  (** The cursor *)
  Definition upto (ls : list (list cell)) : nat := list_sum (map (fun l => S (length l)) ls).

  Lemma prefix : forall s ls, lines s ls -> ~ In 13%N (plain St s) -> forall l1 l l2 q, ls = l1 ++ l :: l2 -> q <= length l ->
    exists pre, firstn (upto l1 + q) s = pre ++ firstn q l /\ length pre = upto l1 /\
      length (filter (fun c => N.eqb c 13 || N.eqb c 10) (plain St pre)) = length l1 /\
      (l1 = [] -> pre = []) /\ (l1 <> [] -> exists p a, pre = p ++ [(10%N, a)]).
  Proof.
    assert (F : forall l : list cell, ~ In 10%N (plain St l) -> ~ In 13%N (plain St l) ->
      filter (fun c => N.eqb c 13 || N.eqb c 10) (plain St l) = []).
    { induction l as [|c l IH]; intros H1 H2; [reflexivity|]. cbn.
      destruct (N.eqb (fst c) 13) eqn:E1; [exfalso; apply H2; left; apply N.eqb_eq; exact E1|].
      destruct (N.eqb (fst c) 10) eqn:E2; [exfalso; apply H1; left; apply N.eqb_eq; exact E2|].
      apply IH; intros X; [apply H1|apply H2]; right; exact X. }
    intros s ls H. induction H as [l0 Hi|l0 a s ls Hi Hc H IH|l0 a b s ls Hi H IH]; intros Hr l1 l l2 q E Hq.
    - destruct l1 as [|x l1]; [|destruct l1; discriminate E]. injection E as -> <-.
      exists []. split; [reflexivity|]. split; [reflexivity|]. split; [reflexivity|]. split; [reflexivity|]. intros X. exfalso. apply X. reflexivity.
    - destruct l1 as [|x l1].
      + injection E as -> ->. exists []. cbn [upto map list_sum fold_right app length plain filter Nat.add].
        rewrite firstn_app. replace (q - length l) with 0 by lia. cbn [firstn]. rewrite app_nil_r. split; [reflexivity|]. split; [reflexivity|]. split; [reflexivity|]. split; [reflexivity|]. intros X. exfalso. apply X. reflexivity.
      + injection E as -> E.
        unfold plain in Hr. rewrite map_app in Hr. cbn [map fst] in Hr.
        destruct (IH ltac:(intros X; apply Hr; apply in_or_app; right; right; exact X) l1 l l2 q E Hq) as (pre & Q1 & Q2 & Q3 & Q4 & Q5).
        exists (x ++ (10%N, a) :: pre).
        assert (U : upto (x :: l1) = S (length x) + upto l1) by reflexivity.
        split; [|split; [|split; [|split]]].
        * rewrite U. rewrite firstn_app. rewrite firstn_all2 by lia.
          replace (S (length x) + upto l1 + q - length x) with (S (upto l1 + q)) by lia.
          cbn [firstn]. rewrite Q1, <- app_assoc. reflexivity.
        * rewrite U, app_length. cbn [length]. lia.
        * unfold plain. rewrite map_app, filter_app, app_length. cbn [map fst filter].
          fold (plain St x). rewrite F; [|exact Hi|intros X; apply Hr; apply in_or_app; left; exact X].
          cbn. f_equal. exact Q3.
        * discriminate.
        * intros _. destruct l1 as [|y l1].
          -- rewrite (Q4 eq_refl). exists x, a. reflexivity.
          -- destruct (Q5 ltac:(discriminate)) as (p & a' & ->). exists (x ++ (10%N, a) :: p), a'. rewrite <- app_assoc. reflexivity.
    - exfalso. apply Hr. unfold plain. rewrite map_app. apply in_or_app. right. left. reflexivity.
  Qed.

  Lemma unit_width : forall r : list cell, (forall c, In c r -> chw (fst c) = 1) -> row_width chw r = length r.
  Proof.
    induction r as [|c r IH]; intros H; [reflexivity|]. cbn. rewrite (H c) by (left; reflexivity).
    fold (row_width chw r). rewrite IH by (intros d Hd; apply H; right; exact Hd). reflexivity.
  Qed.

  Definition units (rows : list (list cell)) : Prop := forall c, In c (concat rows) -> chw (fst c) = 1.

  Lemma offset_skip : forall A B pos w y, units A -> w + length (concat A) < pos \/ A = [] ->
    offset_go chw (A ++ B) pos w y = offset_go chw B pos (w + length (concat A)) (y + length A).
  Proof.
    induction A as [|r A IH]; intros B pos w y Hu H.
    - cbn. rewrite !Nat.add_0_r. reflexivity.
    - destruct H as [H|H]; [|discriminate H]. cbn [concat] in H |- *. rewrite app_length in H |- *.
      cbn [app offset_go]. rewrite unit_width by (intros c Hc; apply Hu; cbn; apply in_or_app; left; exact Hc).
      destruct (Nat.leb pos (w + length r)) eqn:E; [apply Nat.leb_le in E; lia|].
      rewrite IH; [|intros c Hc; apply Hu; cbn; apply in_or_app; right; exact Hc|left; lia].
      cbn [length]. f_equal; lia.
  Qed.

  Lemma offset_hit : forall B C pos w y, units B -> B <> [] -> w <= pos -> pos <= w + length (concat B) ->
    exists x j, offset_go chw (B ++ C) pos w y = (x, y + j) /\ at_column St B (pos - w) x j.
  Proof.
    induction B as [|r B IH]; intros C pos w y Hu Hn H1 H2; [congruence|].
    cbn [app offset_go]. rewrite unit_width by (intros c Hc; apply Hu; cbn; apply in_or_app; left; exact Hc).
    cbn [concat] in H2. rewrite app_length in H2.
    destruct (Nat.leb pos (w + length r)) eqn:E.
    - apply Nat.leb_le in E. exists (pos - w), 0. split; [f_equal; lia|].
      exists [], r, B. repeat split; cbn; lia.
    - apply Nat.leb_gt in E.
      destruct B as [|r' B]; [cbn in H2; lia|].
      destruct (IH C pos (w + length r) (S y)) as (x & j & Q & above & row & below & G1 & G2 & G3 & G4);
        [intros c Hc; apply Hu; cbn; apply in_or_app; right; exact Hc|discriminate|lia|lia|].
      exists x, (S j). split; [rewrite Q; f_equal; lia|].
      exists (r :: above), row, below. rewrite G1. repeat split; [cbn; lia|exact G3|]. cbn [concat]. rewrite app_length. lia.
  Qed.

  Lemma show_plain : forall r : list cell, ~ In 9%N (plain St r) -> flat_map (@show_cell St) r = r.
  Proof.
    induction r as [|[c a] r IH]; intros H; [reflexivity|]. cbn [flat_map]. unfold show_cell at 1. cbn [fst].
    destruct (N.eqb c 9) eqn:E; [exfalso; apply H; left; apply N.eqb_eq; exact E|].
    cbn [app]. f_equal. apply IH. intros X. apply H. right. exact X.
  Qed.

  Lemma lines_in : forall s ls, lines s ls -> forall l c, In l ls -> In c l -> In c s /\ fst c <> 10%N.
  Proof.
    assert (Q : forall (l : list cell) c, ~ In 10%N (plain St l) -> In c l -> fst c <> 10%N).
    { intros l c Hi Hc X. apply Hi. rewrite <- X. apply in_map. exact Hc. }
    intros s ls H. induction H as [l0 Hi|l0 a s ls Hi Hc H IH|l0 a b s ls Hi H IH]; intros l c [<-|Hl] Hcl.
    - split; [exact Hcl|exact (Q _ _ Hi Hcl)].
    - destruct Hl.
    - split; [apply in_or_app; left; exact Hcl|exact (Q _ _ Hi Hcl)].
    - destruct (IH l c Hl Hcl) as [X Y]. split; [apply in_or_app; right; right; exact X|exact Y].
    - split; [apply in_or_app; left; exact Hcl|exact (Q _ _ Hi Hcl)].
    - destruct (IH l c Hl Hcl) as [X Y]. split; [apply in_or_app; right; right; right; exact X|exact Y].
  Qed.

  Lemma wrap_last : forall width (cs : list cell) w row, row <> [] \/ cs <> [] -> exists g r, wrap chw width w row cs = g ++ [r] /\ r <> [].
  Proof.
    induction cs as [|c cs IH]; intros w row H; cbn [wrap].
    - exists [], row. split; [reflexivity|]. destruct H as [H|H]; congruence.
    - destruct (Nat.ltb width (w + chw (fst c))).
      + destruct (IH (chw (fst c)) [c] ltac:(left; discriminate)) as (g & r & E & Hr). exists (row :: g), r. rewrite E. split; [reflexivity|exact Hr].
      + destruct (IH (w + chw (fst c)) (row ++ [c]) ltac:(left; intros X; destruct row; discriminate X)) as (g & r & E & Hr).
        exists g, r. split; assumption.
  Qed.

  Notation wr width := (wrap (St:=St) chw width 0 []).

  Lemma concat_wr : forall width ls, concat (concat (map (wr width) ls)) = concat ls.
  Proof.
    intros width. induction ls as [|l ls IH]; [reflexivity|]. cbn [map concat]. rewrite concat_app, IH. f_equal. apply wrap_concat.
  Qed.

  Lemma upto_length : forall ls, upto ls = length (concat ls) + length ls.
  Proof.
    induction ls as [|l ls IH]; [reflexivity|]. change (upto (l :: ls)) with (S (length l) + upto ls).
    cbn [concat length]. rewrite app_length, IH. lia.
  Qed.

  Lemma cursor_setup : forall width s l1 l l2 q,
    lines s (l1 ++ l :: l2) -> s <> [] -> q <= length l ->
    (forall c, In c s -> fst c <> 13%N /\ fst c <> 9%N /\ (fst c <> 10%N -> chw (fst c) = 1)) ->
    convert chw width s = concat (map (wr width) l1) ++ wr width l ++ concat (map (wr width) l2) /\
    units (concat (map (wr width) l1)) /\ units (wr width l) /\ wr width l <> [] /\ length (concat (wr width l)) = length l /\
    (forall c, In c l -> fst c <> 10%N) /\ (forall ls, Forall2 (rows_of width) ls (map (wr width) ls)) /\
    exists pre, (l1 = [] -> pre = []) /\ (l1 <> [] -> exists p a, pre = p ++ [(10%N, a)]) /\
      cursor chw width (plain St s) (upto l1 + q) s =
      let (x, y) := offset_go chw (concat (map (wr width) l1) ++ wr width l ++ concat (map (wr width) l2)) (length (concat l1) + q) 0 0 in
      match rev (map fst (pre ++ firstn q l)) with c :: _ => if N.eqb c 10 then (0, y + 1) else (x, y) | [] => (x, y) end.
  Proof.
    intros width s l1 l l2 q H Hs Hq Hch.
    assert (Hin : forall l0 c, In l0 (l1 ++ l :: l2) -> In c l0 -> chw (fst c) = 1 /\ fst c <> 9%N).
    { intros l0 c H1 H2. destruct (lines_in _ _ H l0 c H1 H2) as [X Y]. destruct (Hch c X) as (_ & Z1 & Z2). split; [exact (Z2 Y)|exact Z1]. }
    assert (Hconv : convert chw width s = concat (map (wr width) l1) ++ wr width l ++ concat (map (wr width) l2)).
    { rewrite (convert_rows width s _ H Hs).
      rewrite (map_ext_in _ (wr width)).
      - rewrite map_app, concat_app. reflexivity.
      - intros l0 H0. rewrite <- (map_id (wr width l0)) at 2. apply map_ext_in. intros r Hr. apply show_plain.
        intros X. unfold plain in X. apply in_map_iff in X. destruct X as (c & X & Hc).
        assert (In c l0) as Y.
        { assert (Q := wrap_concat width l0 0 []). cbn [app] in Q. rewrite <- Q. apply in_concat. exists r. split; assumption. }
        destruct (Hin l0 c H0 Y) as [_ Z]. exact (Z X). }
    assert (Hrows : forall ls, Forall2 (rows_of width) ls (map (wr width) ls)).
    { induction ls as [|l0 ls IH]; constructor; [apply wrap_rows|exact IH]. }
    assert (U1 : units (concat (map (wr width) l1))).
    { intros c Hc. rewrite concat_wr in Hc. apply in_concat in Hc. destruct Hc as (l0 & A & B).
      apply (Hin l0); [apply in_or_app; left; exact A|exact B]. }
    assert (U : units (wr width l)).
    { intros c Hc. rewrite wrap_concat in Hc. apply (Hin l); [apply in_or_app; right; left; reflexivity|exact Hc]. }
    assert (Hne : wr width l <> []).
    { destruct (wrap_head width l 0 []) as (x & rest & E). rewrite E. discriminate. }
    assert (Hlen : length (concat (wr width l)) = length l) by (rewrite wrap_concat; reflexivity).
    destruct (prefix s _ H) with (l1 := l1) (l := l) (l2 := l2) (q := q) as (pre & P1 & P2 & P3 & P4 & P5);
      [intros X; unfold plain in X; apply in_map_iff in X; destruct X as (c & X & Hc); destruct (Hch c Hc) as [Y _]; exact (Y X)|reflexivity|exact Hq|].
    assert (Hlnl : forall c, In c l -> fst c <> 10%N).
    { intros c Hc. apply (lines_in _ _ H l c); [apply in_or_app; right; left; reflexivity|exact Hc]. }
    assert (Hl13 : forall c, In c l -> fst c <> 13%N).
    { intros c Hc. destruct (lines_in _ _ H l c) as [X _]; [apply in_or_app; right; left; reflexivity|exact Hc|]. apply (Hch c X). }
    assert (Hcount : newline_chars (plain St s) (upto l1 + q) = length l1).
    { unfold newline_chars, plain. rewrite firstn_map, P1, map_app, filter_app, app_length. unfold plain in P3. rewrite P3.
      assert (filter (fun c => N.eqb c 13 || N.eqb c 10) (map fst (firstn q l)) = []) as Z; [|rewrite Z; cbn; lia].
      assert (Hsub : forall c, In c (firstn q l) -> In c l).
      { intros c Hc. rewrite <- (firstn_skipn q l). apply in_or_app. left. exact Hc. }
      revert Hsub. clear - Hl13 Hlnl. generalize (firstn q l). induction l0 as [|c m IH]; intros Hsub; [reflexivity|]. cbn.
      rewrite (proj2 (N.eqb_neq _ _) (Hl13 c (Hsub c (or_introl eq_refl)))), (proj2 (N.eqb_neq _ _) (Hlnl c (Hsub c (or_introl eq_refl)))).
      cbn. apply IH. intros d Hd. apply Hsub. right. exact Hd. }
    assert (Hcur : cursor chw width (plain St s) (upto l1 + q) s =
      let (x, y) := offset_go chw (concat (map (wr width) l1) ++ wr width l ++ concat (map (wr width) l2)) (length (concat l1) + q) 0 0 in
      match rev (map fst (pre ++ firstn q l)) with c :: _ => if N.eqb c 10 then (0, y + 1) else (x, y) | [] => (x, y) end).
    { unfold cursor, cursor_offset. rewrite Hconv, Hcount. unfold plain at 1. rewrite firstn_map, P1.
      replace (upto l1 + q - length l1) with (length (concat l1) + q) by (rewrite upto_length; lia). reflexivity. }
    split; [exact Hconv|]. split; [exact U1|]. split; [exact U|]. split; [exact Hne|]. split; [exact Hlen|]. split; [exact Hlnl|].
    split; [exact Hrows|]. exists pre. split; [exact P4|]. split; [exact P5|exact Hcur].
  Qed.

  Lemma cursor_proof : forall width s l1 l l2 q,
    lines s (l1 ++ l :: l2) -> s <> [] -> q <= length l ->
    (forall c, In c s -> fst c <> 13%N /\ fst c <> 9%N /\ (fst c <> 10%N -> chw (fst c) = 1)) ->
    (q <> 0 \/ l1 = [] \/ l1 = [[]] \/ exists l1' p, l1 = l1' ++ [p] /\ p <> []) ->
    exists before here after x j,
      convert chw width s = concat before ++ here ++ concat after /\
      Forall2 (rows_of width) l1 before /\ rows_of width l here /\ Forall2 (rows_of width) l2 after /\
      cursor chw width (plain St s) (upto l1 + q) s = (x, length (concat before) + j) /\ at_column St here q x j.
  Proof.
    intros width s l1 l l2 q H Hs Hq Hch Hok.
    destruct (cursor_setup width s l1 l l2 q H Hs Hq Hch) as (Hconv & U1 & U & Hne & Hlen & Hlnl & Hrows & pre & P4 & P5 & Hcur).
    exists (map (wr width) l1), (wr width l), (map (wr width) l2).
    assert (Main : exists x j, cursor chw width (plain St s) (upto l1 + q) s = (x, length (concat (map (wr width) l1)) + j) /\ at_column St (wr width l) q x j).
    { destruct (Nat.eq_dec q 0) as [Eq|Nq].
      - subst q. rewrite Hcur. clear Hcur. cbn [firstn]. rewrite app_nil_r, Nat.add_0_r.
        assert (Hat : at_column St (wr width l) 0 0 0).
        { destruct (wr width l) as [|r rs]; [congruence|]. exists [], r, rs. repeat split; cbn; lia. }
        destruct Hok as [X|[E|[E|(l1' & p & E & Hp)]]]; [congruence| | |].
        + rewrite (P4 E). subst l1. cbn [concat map length app].
          destruct (offset_hit (wr width l) (concat (map (wr width) l2)) 0 0 0 U Hne) as (x & j & Q & A); [lia|lia|].
          rewrite Q. exists x, j. split; [reflexivity|exact A].
        + destruct (P5 ltac:(rewrite E; discriminate)) as (p & a & ->). subst l1. cbn [concat map length app wrap].
          cbn [offset_go row_width fold_right Nat.leb Nat.add Nat.sub]. rewrite map_app, rev_app_distr. cbn.
          exists 0, 0. split; [reflexivity|exact Hat].
        + destruct (P5 ltac:(rewrite E; destruct l1'; discriminate)) as (p' & a & ->).
          rewrite map_app, rev_app_distr. cbn [map rev app fst N.eqb Pos.eqb].
          destruct (wrap_last width p 0 [] ltac:(right; exact Hp)) as (g & r & Eg & Hr).
          assert (Er : concat (map (wr width) l1) = (concat (map (wr width) l1') ++ g) ++ [r]).
          { rewrite E, map_app, concat_app. cbn [map concat]. rewrite app_nil_r, Eg, app_assoc. reflexivity. }
          assert (El : length (concat l1) = length (concat (concat (map (wr width) l1') ++ g)) + length r).
          { rewrite <- (concat_wr width l1), Er, (concat_app _ [r]), app_length. cbn [concat]. rewrite app_nil_r. reflexivity. }
          rewrite Er in U1 |- *. rewrite <- app_assoc.
          assert (Hr0 : 0 < length r) by (destruct r; [congruence|cbn; lia]).
          rewrite offset_skip; [|intros c Hc; apply U1; rewrite concat_app; apply in_or_app; left; exact Hc|left; lia].
          destruct (offset_hit [r] (wr width l ++ concat (map (wr width) l2)) (length (concat l1)) (0 + length (concat (concat (map (wr width) l1') ++ g))) (0 + length (concat (map (wr width) l1') ++ g))) as (x & j & Q & A);
            [intros c Hc; apply U1; rewrite concat_app; apply in_or_app; right; exact Hc|discriminate|lia|cbn [concat]; rewrite app_nil_r; lia|].
          rewrite Q. exists 0, 0. split; [|exact Hat].
          destruct A as (above & row & below & A1 & A2 & _).
          destruct above as [|? above]; [|destruct above; discriminate A1]. cbn in A2. subst j.
          f_equal. rewrite (app_length _ [r]). cbn [length]. lia.
      - rewrite Hcur. clear Hcur. rewrite offset_skip; [|exact U1|left; rewrite concat_wr; lia].
        rewrite concat_wr.
        destruct (offset_hit (wr width l) (concat (map (wr width) l2)) (length (concat l1) + q) (0 + length (concat l1)) (0 + length (concat (map (wr width) l1))) U Hne) as (x & j & Q & A); [lia|lia|].
        rewrite Q. exists x, j. replace (length (concat l1) + q - (0 + length (concat l1))) with q in A by lia. split; [|exact A].
        rewrite map_app, rev_app_distr.
        destruct (rev (map fst (firstn q l))) as [|c m] eqn:Em.
        { exfalso. apply (f_equal (@length N)) in Em. rewrite rev_length, map_length, firstn_length in Em. cbn in Em. lia. }
        cbn [app]. assert (In c (map fst (firstn q l))) as Hc by (apply in_rev; rewrite Em; left; reflexivity).
        apply in_map_iff in Hc. destruct Hc as (d & <- & Hd).
        assert (In d l) as Hd' by (rewrite <- (firstn_skipn q l); apply in_or_app; left; exact Hd).
        rewrite (proj2 (N.eqb_neq _ _) (Hlnl d Hd')). reflexivity. }
    destruct Main as (x & j & M1 & M2). exists x, j.
    split; [exact Hconv|]. split; [apply Hrows|]. split; [apply wrap_rows|]. split; [apply Hrows|]. split; assumption.
  Qed.

  Lemma blank_rows : forall width n, concat (map (wr width) (repeat [] n)) = repeat [] n.
  Proof. intros width. induction n as [|n IH]; [reflexivity|]. cbn [repeat map concat wrap app]. rewrite IH. reflexivity. Qed.

  Lemma blank_proof : forall width s l1 p n l l2,
    lines s ((l1 ++ [p]) ++ repeat [] n ++ l :: l2) -> p <> [] ->
    (forall c, In c s -> fst c <> 13%N /\ fst c <> 9%N /\ (fst c <> 10%N -> chw (fst c) = 1)) ->
    exists before here after,
      convert chw width s = concat before ++ repeat [] n ++ here ++ concat after /\
      Forall2 (rows_of width) (l1 ++ [p]) before /\ rows_of width l here /\ Forall2 (rows_of width) l2 after /\
      cursor chw width (plain St s) (upto ((l1 ++ [p]) ++ repeat [] n)) s = (0, length (concat before)).
  Proof.
    intros width s l1 p n l l2 H Hp Hch. rewrite app_assoc in H.
    assert (Hs : s <> []).
    { intros E. destruct p as [|c p]; [congruence|]. destruct (lines_in _ _ H (c :: p) c) as [X _]; [|left; reflexivity|rewrite E in X; exact X].
      apply in_or_app. left. apply in_or_app. left. apply in_or_app. right. left. reflexivity. }
    destruct (cursor_setup width s _ l l2 0 H Hs ltac:(lia) Hch) as (Hconv & U1 & U & Hne & Hlen & Hlnl & Hrows & pre & P4 & P5 & Hcur).
    exists (map (wr width) (l1 ++ [p])), (wr width l), (map (wr width) l2).
    destruct (wrap_last width p 0 [] ltac:(right; exact Hp)) as (g & r & Eg & Hr).
    assert (Er : concat (map (wr width) (l1 ++ [p])) = (concat (map (wr width) l1) ++ g) ++ [r]).
    { rewrite map_app, concat_app. cbn [map concat]. rewrite app_nil_r, Eg, app_assoc. reflexivity. }
    assert (Hr0 : 0 < length r) by (destruct r; [congruence|cbn; lia]).
    rewrite map_app, concat_app, blank_rows in Hconv, U1, Hcur.
    split; [rewrite Hconv, <- app_assoc; reflexivity|]. split; [apply Hrows|]. split; [apply wrap_rows|]. split; [apply Hrows|].
    rewrite Nat.add_0_r in Hcur. rewrite Hcur. clear Hcur.
    destruct P5 as (p' & a & ->); [destruct l1; discriminate|]. cbn [firstn]. rewrite (app_nil_r (p' ++ _)), (map_app fst p'), rev_app_distr.
    cbn [map rev app fst N.eqb Pos.eqb].
    assert (Eb : concat (repeat (@nil cell) n) = []) by (clear; induction n as [|n IH]; [reflexivity|exact IH]).
    assert (El : length (concat ((l1 ++ [p]) ++ repeat [] n)) = length (concat (concat (map (wr width) l1) ++ g)) + length r).
    { rewrite (concat_app (l1 ++ [p])), Eb, app_nil_r, <- (concat_wr width (l1 ++ [p])), Er, (concat_app _ [r]), app_length.
      cbn [concat]. rewrite app_nil_r. reflexivity. }
    rewrite Nat.add_0_r, El. rewrite Er in U1 |- *. rewrite <- !app_assoc. rewrite (app_assoc (concat (map (wr width) l1)) g).
    assert (Ug : units (concat (map (wr width) l1) ++ g)).
    { intros c Hc. apply U1. rewrite <- app_assoc, concat_app. apply in_or_app. left. exact Hc. }
    assert (Ur : units [r]).
    { intros c Hc. apply U1. rewrite <- app_assoc, concat_app. apply in_or_app. right. rewrite concat_app. apply in_or_app. left. exact Hc. }
    rewrite offset_skip; [|exact Ug|left; lia].
    destruct (offset_hit [r] (repeat [] n ++ wr width l ++ concat (map (wr width) l2))
      (length (concat (concat (map (wr width) l1) ++ g)) + length r) (0 + length (concat (concat (map (wr width) l1) ++ g)))
      (0 + length (concat (map (wr width) l1) ++ g)) Ur) as (x & j & Q & A); [discriminate|lia|cbn [concat]; rewrite app_nil_r; lia|].
    rewrite Q. destruct A as (above & row & below & A1 & A2 & _).
    destruct above as [|? above]; [|destruct above; discriminate A1]. cbn in A2. subst j.
    f_equal. rewrite !app_length. cbn [length]. lia.
  Qed.

  Lemma leading_proof : forall width s n l l2,
    lines s (repeat [] (S n) ++ l :: l2) ->
    (forall c, In c s -> fst c <> 13%N /\ fst c <> 9%N /\ (fst c <> 10%N -> chw (fst c) = 1)) ->
    exists here after,
      convert chw width s = repeat [] (S n) ++ here ++ concat after /\
      rows_of width l here /\ Forall2 (rows_of width) l2 after /\
      cursor chw width (plain St s) (S n) s = (0, 1).
  Proof.
    intros width s n l l2 H Hch.
    assert (Hs : s <> []).
    { intros E. subst s. inversion H as [l0 Hi E1 E2|l0 a s0 ls0 Hi Hl H0 E1 E2|l0 a b s0 ls0 Hi H0 E1 E2].
      - destruct n; discriminate E2.
      - destruct l0; discriminate E1.
      - destruct l0; discriminate E1. }
    destruct (cursor_setup width s _ l l2 0 H Hs ltac:(lia) Hch) as (Hconv & U1 & U & Hne & Hlen & Hlnl & Hrows & pre & P4 & P5 & Hcur).
    exists (wr width l), (map (wr width) l2).
    assert (Eb : forall m, concat (repeat (@nil cell) m) = []) by (induction m as [|m IH]; [reflexivity|exact IH]).
    rewrite blank_rows in Hconv, Hcur. split; [exact Hconv|]. split; [apply wrap_rows|]. split; [apply Hrows|].
    rewrite upto_length, Eb, repeat_length in Hcur. cbn [length Nat.add] in Hcur. rewrite Nat.add_0_r in Hcur. rewrite Hcur.
    destruct P5 as (p' & a & ->); [discriminate|]. cbn [firstn]. rewrite (app_nil_r (p' ++ _)), (map_app fst p'), rev_app_distr. reflexivity.
  Qed.
End P.
