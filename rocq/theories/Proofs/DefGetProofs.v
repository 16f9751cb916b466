(** Looking up ops and types. *)
From Coq Require Import String List NArith Arith Lia Bool Sorted Permutation.
From Verif Require Import Model.Base Model.Value Model.TableCrate Model.Parts Model.DefGet Spec.SortSpec Spec.PartsSpec Spec.DefGetSpec
  Proofs.SortProofs Proofs.PartSetProofs Proofs.PartsTreeProofs Proofs.PartsBuildProofs Proofs.PartsUseProofs Proofs.PartsFinalProofs.
Import ListNotations.

Lemma same_type_iff : forall a b, ty_eqb a b = true <-> same_type a b.
Proof.
  intros a b. unfold same_type. split.
  - intros H. destruct a, b; cbn in H; try discriminate; auto. right. apply str_eqb_eq in H. eauto.
  - intros [<-|(d & e & -> & -> & E)]; [destruct a; cbn; auto; apply str_eqb_refl|]. cbn. rewrite E. apply str_eqb_refl.
Qed.
Lemma sorted_nodup : forall l, StronglySorted lt l -> NoDup l.
Proof. induction 1 as [|a l H IH F]; constructor; auto. intros I. rewrite Forall_forall in F. specialize (F a I). lia. Qed.

Section Place.
  Variable ps : parts.
  Hypothesis T : tree ps.
  Lemma imports_fun : forall i l l', imports_of ps i l -> imports_of ps i l' -> l = l'.
  Proof. intros i l l' (n & E & [H|H]) (n' & E' & [H'|H']); congruence. Qed.
  Lemma imports_kind : forall i l, imports_of ps i l -> ~ is_kind ps i KBoundary.
  Proof. intros i l (n & E & I) (p & s & n' & E' & K & _). assert (n' = n) as -> by congruence. unfold kind_of in K. destruct I as [I|I]; rewrite I in K; discriminate. Qed.
  Lemma node_fun : forall i k p s k' p' s', node_is ps i k p s -> node_is ps i k' p' s' -> k = k' /\ p = p' /\ s = s'.
  Proof. intros i k p s k' p' s' (n & E & A & B & C) (n' & E' & A' & B' & C'). assert (n' = n) as -> by congruence. subst. auto. Qed.
  Lemma place_fun : forall i b l b' l', place ps i b l -> place ps i b' l' -> b = b' /\ l = l'.
  Proof.
    assert (R : forall i k p s, i < 3 -> ~ node_is ps i k (Some p) s).
    { intros i k p s L (n & E & _ & P & _). destruct (t_roots ps T) as (_ & X). destruct (X i n L E). congruence. }
    intros i b l b' l' H H'. destruct H as [i k p s l N M|i p s N|i L]; inversion H'; subst; try (exfalso; eapply R; eauto; fail).
    - match goal with X : node_is ps i _ _ _ |- _ => destruct (node_fun _ _ _ _ _ _ _ N X) as (_ & Y & _); injection Y as <- end. split; [reflexivity|]. eapply imports_fun; eauto.
    - exfalso. eapply imports_kind; [exact M|]. eexists _, _. eauto.
    - exfalso. eapply imports_kind; [eassumption|]. eexists _, _. eauto.
    - match goal with X : node_is ps i _ (Some b') _ |- _ => destruct (node_fun _ _ _ _ _ _ _ N X) as (_ & Y & _); injection Y as <- end. auto.
    - auto.
  Qed.
  Lemma place_spec : forall i, i < length ps -> exists b l, bnd_and_imports ps i = Ok (b, l) /\ place ps i b l /\ is_kind ps b KBoundary /\ (l = [] \/ imports_of ps i l).
  Proof.
    intros i L. destruct (nth_error ps i) as [n|] eqn:E; [|apply nth_error_None in E; lia]. unfold bnd_and_imports, pget. rewrite E. cbn [rbind].
    destruct (lt_dec i 3) as [L3|L3].
    - destruct (t_roots ps T) as (L0 & X). destruct (X i n L3 E) as (P & _). rewrite P. exists 0, []. split; [reflexivity|]. split; [now constructor|]. split; [|auto].
      destruct (nth_error ps 0) as [r|] eqn:E0; [|apply nth_error_None in E0; lia]. destruct (X 0 r ltac:(lia) E0) as (P0 & K0). exists None, (pn_name r), r. auto.
    - destruct (t_parent ps T i n ltac:(lia) E) as (p & P & _ & B). rewrite P. destruct (pn_item n) as [e c|l|l] eqn:It.
      + exists p, []. split; [reflexivity|]. split; [|auto]. eapply place_partition. exists n. split; [exact E|]. split; [unfold kind_of; now rewrite It|]. split; [exact P|reflexivity].
      + assert (M : imports_of ps i l) by (exists n; auto). exists p, l. split; [reflexivity|]. split; [|auto]. eapply place_item; [|exact M]. exists n. split; [exact E|]. split; [reflexivity|]. split; [exact P|reflexivity].
      + assert (M : imports_of ps i l) by (exists n; auto). exists p, l. split; [reflexivity|]. split; [|auto]. eapply place_item; [|exact M]. exists n. split; [exact E|]. split; [reflexivity|]. split; [exact P|reflexivity].
  Qed.
End Place.

Section Get.
  Variable so : sorter.
  Variable pp : forall A : Type, (A -> bool) -> list A -> nat.
  Hypothesis SO : sort_contract so.
  Hypothesis PP : partition_contract pp.
  Variable ps : parts.
  Hypothesis T : tree ps.
  Hypothesis SETS : sets so ps.

  Lemma sees_spec : forall i o s segs, i < length ps -> path_ok s segs -> exists b l, bnd_and_imports ps i = Ok (b, l) /\
    exists ts is, find_types so pp ps b l (path_text o s segs) = Ok ts /\ find_impls so pp ps b l (path_text o s segs) = Ok is /\
      NoDup ts /\ NoDup is /\ (forall y, In y ts <-> finds ps KType i o s segs y) /\ (forall y, In y is <-> finds ps KImpl i o s segs y).
  Proof.
    intros i o s segs L (Ns & F). destruct (place_spec ps T i L) as (b & l & E & P & B & M). exists b, l. split; [exact E|].
    assert (Q : exists r, pfind so pp ps b l (path_text o s segs) = Ok r /\ StronglySorted lt r /\ forall y, In y r <-> sees ps b l o s segs y).
    { destruct o; unfold path_text.
      - apply find_relative; auto. destruct M as [->|M]; [apply empty_set; exact SO|now apply SETS in M].
      - exact (find_absolute so pp SO ps b l s segs false T Ns F).
      - exact (find_absolute so pp SO ps b l s segs true T Ns F). }
    destruct Q as (r & Q & Sr & I).
    assert (Lr : forall y, In y r -> y < length ps).
    { intros y Y. apply I in Y.
      assert (W : forall x sg z, walks ps x sg z -> x < length ps -> z < length ps).
      { intros x sg z W. induction W as [x|x p sg z k0 s0 N W IH|x c sg0 sg z k0 _ N W IH]; intros Lx; [exact Lx| |].
        - apply IH. destruct N as (n & En & _ & Pn & _). destruct (lt_dec x 3) as [L3|L3].
          + destruct (t_roots ps T) as (_ & X). destruct (X x n L3 En). congruence.
          + destruct (t_parent ps T x n ltac:(lia) En) as (p' & P' & Lt & _). assert (p' = p) as -> by congruence. lia.
        - apply IH. destruct N as (n & En & _). apply nth_error_Some. congruence. }
      destruct o; cbn [sees] in Y.
      - destruct Y as (x & St & Wk). apply (W _ _ _ Wk). destruct St as [(_ & k0 & s0 & N)|(_ & [(k0 & N)|(Ix & _)])].
        + destruct N as (n & En & _ & Pn & _). destruct (lt_dec b 3) as [L3|L3].
          * destruct (t_roots ps T) as (_ & X). destruct (X b n L3 En). congruence.
          * destruct (t_parent ps T b n ltac:(lia) En) as (p' & P' & Lt & _). assert (p' = x) as -> by congruence. assert (b < length ps) by (apply nth_error_Some; congruence). lia.
        + destruct N as (n & En & _). apply nth_error_Some. congruence.
        + destruct M as [->|M]; [destruct Ix|]. exact (t_imports ps T _ _ _ M Ix).
      - apply (W _ _ _ Y). destruct (t_roots ps T). lia.
      - apply (W _ _ _ Y). destruct (t_roots ps T). lia. }
    destruct (find_kind so pp ps b l _ r T Q Lr) as (ts & is & Et & Ei & Kt & Ki). exists ts, is. split; [exact Et|]. split; [exact Ei|].
    assert (SUB : forall f (x z : list nat), rfilter f x = Ok z -> NoDup x -> NoDup z /\ incl z x).
    { intros f x. induction x as [|a x IH]; intros z H N; cbn in H; [injection H as <-; split; [constructor|intros ? []]|].
      destruct (f a) as [t| |]; try discriminate. cbn in H. destruct (rfilter f x) as [z0| |] eqn:Ez; try discriminate. cbn in H. inversion N as [|? ? Na Nx]; subst.
      destruct (IH _ eq_refl Nx) as (N0 & I0). destruct t; injection H as <-; (split; [|intros u U]).
      - constructor; auto. - destruct U as [<-|U]; [now left|right; now apply I0]. - exact N0. - right; now apply I0. }
    pose proof (sorted_nodup r Sr) as Nr.
    assert (Fx : forall y k, (In y r /\ is_kind ps y k) <-> finds ps k i o s segs y).
    { intros y k. unfold finds. rewrite I. split; [intros (A & K); split; [exact K|]; exists b, l; auto|]. intros (K & b' & l' & P' & A). destruct (place_fun ps T _ _ _ _ _ P P') as (<- & <-). auto. }
    split; [unfold find_types in Et; rewrite Q in Et; exact (proj1 (SUB _ _ _ Et Nr))|]. split; [unfold find_impls in Ei; rewrite Q in Ei; exact (proj1 (SUB _ _ _ Ei Nr))|].
    split; intros y; [rewrite Kt|rewrite Ki]; apply Fx.
  Qed.

  (** ** Ops *)
  Section Ops.
    Variable I : Type.
    Variable impls : nat -> option (option ty * I).
    Variable t : ty.
    Notation exactly := (exactly impls t).
    Notation general := (general impls).
    Definition seen (P : nat -> Prop) (ns : list nat) (y : nat) : Prop := In y ns /\ P y.

    (** After some nodes: at most one of each kind, in the two places. *)
    Definition holds1 (P : nat -> Prop) (before : list nat) (x : option I) : Prop :=
      match x with None => none (seen P before) | Some a => exists y, just (seen P before) y /\ option_map snd (impls y) = Some a end.
    Lemma loop_spec : forall ns before found ambig, NoDup (before ++ ns) -> (forall n, In n ns -> impls n <> None) ->
      holds1 exactly before found -> holds1 general before ambig ->
      match get_loop impls t ns found ambig with
      | Ok a => exists y, option_map snd (impls y) = Some a /\ ~ several (seen exactly (before ++ ns)) /\ ~ several (seen general (before ++ ns)) /\
                  (just (seen exactly (before ++ ns)) y \/ (none (seen exactly (before ++ ns)) /\ just (seen general (before ++ ns)) y))
      | Err e => (e = ambiguous /\ (several (seen exactly (before ++ ns)) \/ several (seen general (before ++ ns)))) \/
                 (e = not_found /\ none (seen exactly (before ++ ns)) /\ none (seen general (before ++ ns)))
      | Panic => False
      end.
    Proof.
      induction ns as [|n ns IH]; intros before found ambig ND D HF HA.
      - cbn [get_loop]. rewrite app_nil_r. assert (U : forall P x, holds1 P before x -> ~ several (seen P before)).
        { intros P x H (y & z & A & B & N). destruct x as [a|]; cbn in H; [|exact (H y A)]. destruct H as (w & (_ & J) & _). apply N. rewrite (J y A), (J z B). reflexivity. }
        destruct found as [a|]; [|destruct ambig as [a|]].
        + destruct HF as (y & J & E). exists y. split; [exact E|]. split; [apply (U _ (Some a)); exists y; auto|]. split; [exact (U _ _ HA)|now left].
        + destruct HA as (y & J & E). exists y. split; [exact E|]. split; [exact (U _ _ HF)|]. split; [apply (U _ (Some a)); exists y; auto|right; auto].
        + right. auto.
      - cbn [get_loop]. assert (Dn := D n (or_introl eq_refl)). assert (Nb : ~ In n before). { intros B. apply NoDup_remove_2 in ND. apply ND, in_or_app. now left. }
        assert (ND' : NoDup ((before ++ [n]) ++ ns)) by (rewrite <- app_assoc; exact ND). assert (EQ : before ++ n :: ns = (before ++ [n]) ++ ns) by (now rewrite <- app_assoc). rewrite EQ.
        assert (KEEP : forall (P : nat -> Prop) x, ~ P n -> holds1 P before x -> holds1 P (before ++ [n]) x).
        { intros P x NP H. assert (S : forall y, seen P (before ++ [n]) y <-> seen P before y).
          { intros y. unfold seen. rewrite in_app_iff. cbn. split; [intros ([B|[<-|[]]] & Q); [auto|contradiction]|intros (B & Q); auto]. }
          destruct x as [a|]; cbn in H |- *; [|intros y Y; apply S in Y; exact (H y Y)]. destruct H as (y & (J1 & J2) & E). exists y. split; [|exact E]. split; [now apply S|]. intros z Z. apply J2. now apply S. }
        assert (NEW : forall (P : nat -> Prop) a, P n -> option_map snd (impls n) = Some a -> holds1 P before None -> holds1 P (before ++ [n]) (Some a)).
        { intros P a Pn E H. exists n. split; [|exact E]. split; [split; [apply in_or_app; right; now left|exact Pn]|]. intros z (Z & Q). apply in_app_or in Z. destruct Z as [Z|[<-|[]]]; [|reflexivity]. exfalso. exact (H z (conj Z Q)). }
        assert (TWO : forall (P : nat -> Prop) a, P n -> holds1 P before (Some a) -> several (seen P ((before ++ [n]) ++ ns))).
        { intros P a Pn (y & ((Y1 & Y2) & _) & _). exists y, n. split; [split; [apply in_or_app; left; apply in_or_app; now left|exact Y2]|]. split; [split; [apply in_or_app; left; apply in_or_app; right; now left|exact Pn]|]. intros ->. contradiction. }
        assert (REST : forall m, In m ns -> impls m <> None) by (intros m M; apply D; now right).
        destruct (impls n) as [[[u|] a]|] eqn:En; [| |congruence].
        + assert (NG : ~ general n) by (intros (a' & X); congruence). destruct (ty_eqb u t) eqn:Eu.
          * assert (X : exactly n) by (exists u, a; split; [exact En|now apply same_type_iff]). destruct found as [f|]; [left; split; [reflexivity|left; exact (TWO _ _ X HF)]|].
            apply IH; auto.
          * assert (X : ~ exactly n). { intros (u' & a' & E & S). apply same_type_iff in S. congruence. } apply IH; auto.
        + assert (X : ~ exactly n) by (intros (u' & a' & E & _); congruence). assert (G : general n) by (exists a; exact En). destruct ambig as [g|]; [left; split; [reflexivity|right; exact (TWO _ _ G HA)]|].
          apply IH; auto.
    Qed.

    Variables (i : nat) (o : origin) (s : str) (segs : list str).
    Hypothesis L : i < length ps.
    Hypothesis OK : path_ok s segs.
    Hypothesis FULL : forall y, is_kind ps y KImpl -> impls y <> None.
    Notation found y := (finds ps KImpl i o s segs y).
    Let E (y : nat) : Prop := found y /\ exactly y.
    Let G (y : nat) : Prop := found y /\ general y.
    Notation get := (get_impl so pp ps impls (path_text o s segs) t i).

    Lemma body_iff : forall y a, option_map snd (impls y) = Some a <-> body_of impls y a.
    Proof. intros y a. unfold body_of. destruct (impls y) as [[u b]|]; cbn; split; [intros X; injection X as ->; eauto|intros (v & X); now injection X as _ ->|discriminate|intros (v & X); discriminate]. Qed.
    Lemma get_cases : match get with
      | Ok a => exists y, body_of impls y a /\ ~ several E /\ ~ several G /\ (just E y \/ (none E /\ just G y))
      | Err e => (e = ambiguous /\ (several E \/ several G)) \/ (e = not_found /\ none E /\ none G)
      | Panic => False
      end.
    Proof.
      destruct (sees_spec i o s segs L OK) as (b & l & P & ts & is & _ & Fi & _ & Ni & _ & Ki). unfold get_impl. rewrite P. cbn [rbind fst snd]. rewrite Fi. cbn [rbind].
      assert (D : forall n, In n is -> impls n <> None) by (intros n N; apply FULL; apply Ki in N; apply N).
      assert (Z : forall P, holds1 P [] None) by (intros P0 y ([] & _)).
      pose proof (loop_spec is [] None None Ni D (Z _) (Z _)) as Q. cbn [app] in Q.
      assert (QE : forall y, seen exactly is y <-> E y) by (intros y; unfold seen, E; now rewrite Ki). assert (QG : forall y, seen general is y <-> G y) by (intros y; unfold seen, G; now rewrite Ki).
      assert (SV : forall P R : nat -> Prop, (forall y, P y <-> R y) -> (several P <-> several R)) by (intros P0 R X; unfold several; split; intros (y & z & A & B & N); exists y, z; (split; [now apply X|split; [now apply X|exact N]])).
      assert (JU : forall (P R : nat -> Prop) y, (forall y, P y <-> R y) -> (just P y <-> just R y)) by (intros P0 R y X; unfold just; rewrite X; split; intros (A & B); (split; [exact A|intros z W; apply B; now apply X])).
      assert (NO : forall P R : nat -> Prop, (forall y, P y <-> R y) -> (none P <-> none R)) by (intros P0 R X; unfold none; split; intros A y B; apply (A y); now apply X).
      destruct (get_loop impls t is None None) as [a|e|]; [| |exact Q].
      - destruct Q as (y & B & S1 & S2 & J). exists y. rewrite <- body_iff. rewrite (SV _ _ QE) in S1. rewrite (SV _ _ QG) in S2. rewrite (JU _ _ y QE), (JU _ _ y QG), (NO _ _ QE) in J. auto.
      - rewrite (SV _ _ QE), (SV _ _ QG), (NO _ _ QE), (NO _ _ QG) in Q. exact Q.
    Qed.
    Lemma just_none : forall (P : nat -> Prop) y, just P y -> none P -> False.
    Proof. intros P y (A & _) N. exact (N y A). Qed.
    Lemma several_none : forall P : nat -> Prop, several P -> none P -> False.
    Proof. intros P (y & z & A & _) N. exact (N y A). Qed.
    Theorem op_meant : forall a, get = Ok a <-> exists y, body_of impls y a /\ ~ several E /\ ~ several G /\ (just E y \/ (none E /\ just G y)).
    Proof.
      pose proof get_cases as Q. intros a. split; [intros H; now rewrite H in Q|]. intros (y & (u & B) & S1 & S2 & J). destruct get as [b|e|]; [|exfalso|destruct Q].
      - destruct Q as (y' & (u' & B') & _ & _ & J'). assert (y' = y) as ->; [|congruence].
        destruct J as [J|(N & J)], J' as [J'|(N' & J')]; try (exfalso; eauto using just_none; fail); apply J; apply J'.
      - destruct Q as [(_ & [Q|Q])|(_ & Q1 & Q2)]; try contradiction. destruct J as [J|(_ & J)]; eauto using just_none.
    Qed.
    Theorem op_ambiguous : get = Err ambiguous <-> several E \/ several G.
    Proof.
      pose proof get_cases as Q. split; [intros H; rewrite H in Q; destruct Q as [(_ & Q)|(X & _)]; [exact Q|discriminate X]|]. intros S. destruct get as [a|e|]; [exfalso| |destruct Q].
      - destruct Q as (y & _ & S1 & S2 & _). tauto.
      - destruct Q as [(-> & _)|(_ & Q1 & Q2)]; [reflexivity|]. exfalso. destruct S; eauto using several_none.
    Qed.
    Theorem op_missing : get = Err not_found <-> none E /\ none G.
    Proof.
      pose proof get_cases as Q. split; [intros H; rewrite H in Q; destruct Q as [(X & _)|(_ & Q)]; [discriminate X|exact Q]|]. intros (N1 & N2). destruct get as [a|e|]; [exfalso| |destruct Q].
      - destruct Q as (y & _ & _ & _ & [J|(_ & J)]); eauto using just_none.
      - destruct Q as [(_ & [Q|Q])|(-> & _)]; [exfalso; eauto using several_none..|reflexivity].
    Qed.
    Theorem op_answers : get <> Panic /\ forall e, get = Err e -> e = ambiguous \/ e = not_found.
    Proof. pose proof get_cases as Q. split; [intros H; now rewrite H in Q|]. intros e H. rewrite H in Q. tauto. Qed.
  End Ops.

  (** ** Types *)
  Section Types.
    Variable types : nat -> option ty.
    Variables (i : nat) (o : origin) (s : str) (segs : list str).
    Hypothesis L : i < length ps.
    Hypothesis OK : path_ok s segs.
    Hypothesis FULL : forall y, is_kind ps y KType -> types y <> None.
    Notation found := (finds ps KType i o s segs).
    Notation get := (get_ty so pp ps types (path_text o s segs) i).
    Lemma ty_cases : match get with
      | Ok t => exists y, just found y /\ types y = Some t
      | Err e => (e = ambiguous /\ several found) \/ (e = not_found /\ none found)
      | Panic => False
      end.
    Proof.
      destruct (sees_spec i o s segs L OK) as (b & l & P & ts & is & Ft & _ & Nt & _ & Kt & _). unfold get_ty. rewrite P. cbn [rbind fst snd]. rewrite Ft. cbn [rbind].
      destruct ts as [|x [|z ts]].
      - right. split; [reflexivity|]. intros y Y. now apply Kt in Y.
      - assert (D : types x <> None) by (apply FULL; apply (proj1 (Kt x)); now left). destruct (types x) as [t|] eqn:E; [|congruence]. exists x. split; [|exact E]. split; [apply Kt; now left|].
        intros z Z. apply Kt in Z. destruct Z as [<-|[]]. reflexivity.
      - left. split; [reflexivity|]. exists x, z. split; [apply Kt; now left|]. split; [apply Kt; right; now left|]. intros ->. inversion Nt as [|? ? Nx _]. apply Nx. now left.
    Qed.
    Theorem ty_meant : forall t, get = Ok t <-> exists y, just found y /\ types y = Some t.
    Proof.
      pose proof ty_cases as Q. intros t. split; [intros H; now rewrite H in Q|]. intros (y & J & E). destruct get as [u|e|]; [|exfalso|destruct Q].
      - destruct Q as (y' & J' & E'). assert (y' = y) as -> by (apply J; apply J'). congruence.
      - destruct Q as [(_ & a & b & A & B & N)|(_ & N)]; [apply N; now rewrite (proj2 J a A), (proj2 J b B)|]. exact (N y (proj1 J)).
    Qed.
    Theorem ty_ambiguous : get = Err ambiguous <-> several found.
    Proof.
      pose proof ty_cases as Q. split; [intros H; rewrite H in Q; destruct Q as [(_ & Q)|(X & _)]; [exact Q|discriminate X]|]. intros (a & b & A & B & N). destruct get as [u|e|]; [exfalso| |destruct Q].
      - destruct Q as (y & J & _). apply N. now rewrite (proj2 J a A), (proj2 J b B).
      - destruct Q as [(-> & _)|(_ & Q)]; [reflexivity|]. exfalso. exact (Q a A).
    Qed.
    Theorem ty_missing : get = Err not_found <-> none found.
    Proof.
      pose proof ty_cases as Q. split; [intros H; rewrite H in Q; destruct Q as [(X & _)|(_ & Q)]; [discriminate X|exact Q]|]. intros N. destruct get as [u|e|]; [exfalso| |destruct Q].
      - destruct Q as (y & (J & _) & _). exact (N y J).
      - destruct Q as [(_ & a & b & A & _)|(-> & _)]; [exfalso; exact (N a A)|reflexivity].
    Qed.
    Theorem ty_answers : get <> Panic /\ forall e, get = Err e -> e = ambiguous \/ e = not_found.
    Proof. pose proof ty_cases as Q. split; [intros H; now rewrite H in Q|]. intros e H. rewrite H in Q. tauto. Qed.
  End Types.

  Theorem contains_spec : forall i o s segs, i < length ps -> path_ok s segs -> exists c d,
    contains_impl so pp ps (path_text o s segs) i = Ok c /\ contains_type so pp ps (path_text o s segs) i = Ok d /\
    (c = true <-> exists y, finds ps KImpl i o s segs y) /\ (d = true <-> exists y, finds ps KType i o s segs y).
  Proof.
    intros i o s segs L OK. destruct (sees_spec i o s segs L OK) as (b & l & P & ts & is & Ft & Fi & _ & _ & Kt & Ki). unfold contains_impl, contains_type. rewrite P. cbn [rbind fst snd]. rewrite Ft, Fi. cbn [rbind].
    assert (X : forall (P : nat -> Prop) (l : list nat), (forall y, In y l <-> P y) -> (match l with [] => false | _ => true end = true <-> exists y, P y)).
    { intros P0 [|x r] H; split; [discriminate|intros (y & Y); now apply H in Y|intros _; exists x; apply H; now left|reflexivity]. }
    do 2 eexists. split; [reflexivity|]. split; [reflexivity|]. split; apply X; assumption.
  Qed.
End Get.

(** ** After reading files *)
Theorem files_sets : forall so glob hash_order, sort_contract so -> (forall m, Permutation m (hash_order m)) ->
  forall fsmap ps, extend_root so glob hash_order parts_new fsmap = Ok ps -> tree ps /\ sets so ps.
Proof.
  intros so glob ho SO PM fsmap ps H. destruct (extend_links so glob ho SO PM _ _ _ new_tree H) as (al & B & _ & _ & _ & (D & _)). pose proof (b_tree _ _ _ _ B) as T. split; [exact T|].
  intros i l M. pose proof M as (n & E & It).
  assert (NI : node_is ps i (kind_of n) (pn_parent n) (pn_name n)) by (exists n; auto). assert (L3 : 3 <= i).
  { destruct (le_lt_dec 3 i) as [X|X]; [exact X|]. exfalso. destruct (t_roots ps T) as (_ & R). destruct (R i n X E) as (_ & K). apply (imports_kind ps i l M). exists (pn_parent n), (pn_name n), n. auto. }
  pose proof (b_new _ _ _ _ B i _ _ _ NI L3) as W. assert (K : kind_eqb (kind_of n) KBoundary = false) by (unfold kind_of; destruct It as [It|It]; rewrite It; reflexivity). rewrite K in W.
  apply in_concat in W. destruct W as (ids & W & Wi). apply in_map_iff in W. destruct W as (x & <- & Wx). destruct (D x i Wx Wi) as (l' & M' & S & _). now rewrite (imports_fun ps i l l' M M').
Qed.
(** A name in a file means what its partition or its imports have of that name. *)
Theorem in_file : forall so glob hash_order, sort_contract so -> (forall m, Permutation m (hash_order m)) ->
  forall fsmap ps, extend_root so glob hash_order parts_new fsmap = Ok ps ->
  exists al, built parts_new fsmap ps al /\ forall x i k s y, In x al -> In i (pl_ids x) -> s <> lit ".." ->
    (finds ps k i Here s [] y <-> is_kind ps y k /\ named ps y s /\ (child_of ps y (pl_boundary x) \/ exists im, In im (file_imports (pl_file x)) /\ imported glob ps (pl_boundary x) im y)).
Proof.
  intros so glob ho SO PM fsmap ps H. destruct (extend_links so glob ho SO PM _ _ _ new_tree H) as (al & B & _ & _ & _ & (D & _)). pose proof (b_tree _ _ _ _ B) as T. exists al. split; [exact B|].
  intros x i k s y X I NE. destruct (D x i X I) as (l & M & _ & Ml). destruct (b_items _ _ _ _ B x X) as (_ & F).
  assert (N : exists k s, node_is ps i k (Some (pl_boundary x)) s).
  { clear - F I. revert I. induction F as [|a ks ids its N F IH]; intros I; [destruct I|]. destruct I as [<-|I]; [eauto|auto]. }
  destruct N as (k0 & s0 & N). pose proof (place_item ps i k0 _ s0 l N M) as P. unfold finds, sees. split.
  - intros (K & b & l' & P' & z & St & W). destruct (place_fun ps T _ _ _ _ _ P P') as (<- & <-). inversion W; subst. split; [exact K|].
    destruct St as [(Q & _)|(_ & [(k1 & N1)|(Iy & Ny)])]; [contradiction| |].
    + split; [exists k1, (Some (pl_boundary x)); exact N1|]. left. exists k1, s. exact N1.
    + split; [exact Ny|]. right. now apply Ml.
  - intros (K & Ny & C). split; [exact K|]. exists (pl_boundary x), l. split; [exact P|]. exists y. split; [|constructor]. right. split; [exact NE|]. destruct C as [(k1 & s1 & N1)|C].
    + left. destruct Ny as (k2 & p2 & N2). destruct (node_fun ps _ _ _ _ _ _ _ N1 N2) as (_ & _ & ->). exists k1. exact N1.
    + right. split; [now apply Ml|exact Ny].
Qed.
