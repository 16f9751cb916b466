From Coq Require Import List Arith Lia NArith ZArith Bool.
From Verif Require Import Model.Base Model.Shell Spec.ShellSpec Proofs.HistoryProofs.
Import ListNotations.

Lemma as_u16_le : forall n, as_u16 n <= n.
Proof.
  intros n. unfold as_u16. assert (N.of_nat n mod 65536 <= N.of_nat n)%N by (apply N.mod_le; discriminate). lia.
Qed.

Definition scroll_ok (o : outputs) : Prop := o_scroll o <= outputs_height o - 1.

Lemma scroll_step_ok : forall h op o o', output_step h op o = Ok o' -> scroll_ok o -> scroll_ok o'.
Proof.
  intros h op o o' H HS. destruct op as [v th|w th|n]; cbn [output_step] in H.
  - injection H as <-. unfold scroll_ok, outputs_add. cbn [o_scroll]. lia.
  - injection H as <-. unfold scroll_ok. cbn [o_scroll outputs_update_width]. lia.
  - unfold outputs_scroll in H. destruct (n ?= 0)%Z.
    + injection H as <-. auto.
    + destruct (_ <=? _)%Z; [|discriminate]. injection H as <-. unfold scroll_ok in *. cbn [o_scroll].
      change (outputs_height (Outputs (o_items o) (o_limit o) (o_width o) (o_scroll o - Z.to_nat (- n)))) with (outputs_height o). lia.
    + destruct (_ <=? _)%Z; [|discriminate]. injection H as <-. unfold scroll_ok in *. cbn [o_scroll].
      match goal with |- _ <= outputs_height ?x - 1 => change (outputs_height x) with (outputs_height o) end.
      pose proof (as_u16_le (outputs_height o - 1)). lia.
Qed.

Theorem scroll_in_range : forall h ops w limit o, output_steps h ops (outputs_new w limit) = Ok o ->
  o_scroll o <= outputs_height o - 1.
Proof.
  intros h ops w limit o. assert (H0 : scroll_ok (outputs_new w limit)) by (unfold scroll_ok; cbn; lia).
  revert H0. generalize (outputs_new w limit). induction ops as [|op ops IH]; intros o0 H0 E; cbn [output_steps] in E.
  - injection E as <-. exact H0.
  - destruct (output_step h op o0) as [o1|e|] eqn:E1; try discriminate. cbn in E.
    eapply IH; [|exact E]. eapply scroll_step_ok; eauto.
Qed.

Lemma lastn_tl : forall A n (l : list A), n < length l -> length l = S n -> lastn n l = tl l.
Proof. intros A n l H E. unfold lastn. rewrite E. replace (S n - n) with 1 by lia. destruct l; reflexivity. Qed.

Lemma items_inv : forall h ops o o', output_steps h ops o = Ok o' -> length (o_items o) <= o_limit o ->
  map fst (o_items o') = lastn (o_limit o) (map fst (o_items o) ++ written ops) /\ o_limit o' = o_limit o.
Proof.
  intros h. induction ops as [|op ops IH]; intros o o' E HL; cbn [output_steps written] in *.
  - injection E as <-. rewrite app_nil_r. split; auto. symmetry. apply lastn_all. now rewrite map_length.
  - destruct (output_step h op o) as [o1|e|] eqn:E1; try discriminate. cbn [rbind] in E.
    destruct op as [v th|w th|n]; cbn [output_step] in E1.
    + injection E1 as <-. set (o1 := outputs_add h v th o) in *.
      set (it := o_items o ++ [(v, h v (o_width o - 1) th)]) in *.
      assert (LI : length it = length (o_items o) + 1) by (unfold it; rewrite app_length; reflexivity).
      assert (HI : o_items o1 = lastn (o_limit o) it).
      { unfold o1, outputs_add. fold it. cbn [o_items]. destruct (Nat.ltb_spec (o_limit o) (length it)).
        - symmetry. apply lastn_tl; lia.
        - symmetry. apply lastn_all. lia. }
      destruct (IH o1 o' E) as [A B].
      { rewrite HI, lastn_length. cbn. lia. }
      rewrite A, B. split; [|reflexivity]. change (o_limit o1) with (o_limit o). rewrite HI.
      assert (M : map fst (lastn (o_limit o) it) = lastn (o_limit o) (map fst (o_items o) ++ [v])).
      { unfold lastn. rewrite <- skipn_map. unfold it. rewrite map_app, !app_length, !map_length. reflexivity. }
      rewrite M. replace (map fst (o_items o) ++ v :: written ops) with ((map fst (o_items o) ++ [v]) ++ written ops)
        by now rewrite <- app_assoc.
      generalize (map fst (o_items o) ++ [v]) as a, (written ops) as b. intros a b.
      unfold lastn. rewrite !app_length, skipn_length.
      rewrite !skipn_app, skipn_skipn', skipn_length. f_equal; f_equal; lia.
    + injection E1 as <-. destruct (IH _ o' E) as [A B]; [cbn; now rewrite map_length|].
      rewrite A, B. cbn. now rewrite map_map.
    + assert (o_items o1 = o_items o /\ o_limit o1 = o_limit o) as [I1 I2].
      { unfold outputs_scroll in E1. destruct (n ?= 0)%Z; [|destruct (_ <=? _)%Z; [|discriminate]..]; injection E1 as <-; auto. }
      destruct (IH o1 o' E) as [A B]; [now rewrite I1, I2|]. rewrite A, B, I1, I2. auto.
Qed.

Theorem outputs_keep_latest : forall h ops w limit o, output_steps h ops (outputs_new w limit) = Ok o ->
  map fst (o_items o) = lastn limit (written ops).
Proof.
  intros h ops w limit o E. destruct (items_inv h ops _ _ E) as [A _]; [cbn; lia|]. exact A.
Qed.

Theorem outputs_total : forall h ops w limit,
  (forall n, In (OScroll n) ops -> (Z.abs n <= 65535)%Z) ->
  exists o, output_steps h ops (outputs_new w limit) = Ok o.
Proof.
  intros h ops w limit. generalize (outputs_new w limit). induction ops as [|op ops IH]; intros o H; cbn [output_steps]; [eauto|].
  assert (exists o1, output_step h op o = Ok o1) as [o1 E1].
  { destruct op as [v th|w' th|n]; cbn [output_step]; eauto.
    specialize (H n (or_introl eq_refl)). unfold outputs_scroll.
    destruct (Z.compare_spec n 0); eauto; rewrite (proj2 (Z.leb_le _ _)) by lia; eauto. }
  rewrite E1. cbn. apply IH. intros n Hn. apply H. now right.
Qed.

(** The scroll bar stays in its area whatever the floating point results are. *)
Theorem scroll_bar_inside : forall area height bar off y hgt, 1 <= area ->
  scroll_location area height bar off = (y, hgt) -> 1 <= hgt /\ y + hgt <= area.
Proof.
  intros area height bar off y hgt HA H. unfold scroll_location in H.
  destruct (Nat.leb height 1); [injection H as <- <-; lia|].
  destruct (Nat.ltb_spec area 1); [lia|].
  destruct (Nat.ltb_spec (Nat.max bar 1) area); injection H as <- <-; lia.
Qed.

(** Heights are those at the current width. *)
Theorem heights_current : forall h ops w limit o, output_steps h ops (outputs_new w limit) = Ok o ->
  o_width o = last_width w ops /\
  forall text n, In (text, n) (o_items o) -> exists theme, n = h text (last_width w ops - 1) theme.
Proof.
  intros h ops w limit o. change w with (o_width (outputs_new w limit)) at 2 3.
  assert (H0 : forall text n, In (text, n) (o_items (outputs_new w limit)) -> exists theme, n = h text (o_width (outputs_new w limit) - 1) theme)
    by (intros text n []).
  revert H0. generalize (outputs_new w limit) as o0. induction ops as [|op ops IH]; intros o0 H0 E; cbn [output_steps] in E.
  - injection E as <-. cbn [last_width]. auto.
  - destruct (output_step h op o0) as [o1|e|] eqn:E1; try discriminate. cbn [rbind] in E. specialize (IH o1).
    assert (X : last_width (o_width o0) (op :: ops) = last_width (o_width o1) ops /\
                forall text n, In (text, n) (o_items o1) -> exists theme, n = h text (o_width o1 - 1) theme).
    { destruct op as [v th|w' th|k]; cbn [output_step] in E1.
      - injection E1 as <-. split; [reflexivity|]. unfold outputs_add. cbn [o_items o_width]. intros text n Hn.
        assert (Hn' : In (text, n) (o_items o0 ++ [(v, h v (o_width o0 - 1) th)])).
        { destruct (Nat.ltb _ _); auto. destruct (o_items o0 ++ _); [exact Hn|]. right. exact Hn. }
        apply in_app_or in Hn'. destruct Hn' as [Hn'|[Hn'|[]]]; [auto|]. injection Hn' as <- <-. eauto.
      - injection E1 as <-. split; [reflexivity|]. unfold outputs_update_width. cbn [o_items o_width]. intros text n Hn.
        apply in_map_iff in Hn. destruct Hn as ([t m] & X & _). cbn in X. injection X as <- <-. eauto.
      - unfold outputs_scroll in E1. destruct (k ?= 0)%Z; [|destruct (_ <=? _)%Z; [|discriminate]..]; injection E1 as <-; auto. }
    destruct X as [-> X]. apply IH; auto.
Qed.
