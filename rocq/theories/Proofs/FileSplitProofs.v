(** Lines, and the splitting of a text into items. *)
From Coq Require Import String List ZArith NArith Bool Arith Lia.
From Verif Require Import Model.Base Model.Parse Model.File Spec.ParseSpec Spec.FileSpec.
Import ListNotations.

Inductive lines_ok : list (str * str) -> Prop :=
| lok_nil : lines_ok []
| lok_last l : l <> [] -> ~ In nl l -> lines_ok [(l, [])]
| lok_cons l e ls : ~ In nl l -> (e = [nl] /\ (forall l', l <> l' ++ [cr]) \/ e = [cr; nl]) -> lines_ok ls -> lines_ok ((l, e) :: ls).

Lemma chop_ok : forall s, lines_ok (chop s) /\ unchop (chop s) = s.
Proof.
  induction s as [|c s [O U]]; [split; [constructor|reflexivity]|].
  cbn [chop]. destruct (N.eqb_spec c nl) as [->|Hc].
  - split; [constructor; auto; left; split; auto; intros [|x l'] A; discriminate A|]. cbn. f_equal. exact U.
  - destruct (chop s) as [|[l e] r] eqn:Ec.
    + cbn in U. subst s. split; [constructor; [discriminate|intros [A|[]]; congruence]|reflexivity].
    + cbn in U. inversion O as [|l' Hl Hn|l' e' ls' Hn He Hr]; subst.
      * destruct l as [|x l]; [congruence|]. cbn. split; [|reflexivity]. constructor; [discriminate|]. intros [A|A]; [congruence|now apply Hn].
      * assert (K : (l = [] /\ e = [nl]) \/ (match l, e with [], [_] => True | _, _ => False end -> False)).
        { destruct l as [|x l]; [|right; auto]. destruct He as [[-> _]| ->]; [left; auto|right; auto]. }
        destruct K as [[-> ->]|K].
        -- destruct (N.eqb_spec c cr) as [->|Hcr].
           ++ split; [constructor; auto|reflexivity].
           ++ split; [constructor; auto|reflexivity].
              ** intros [A|[]]; congruence.
              ** left. split; auto. intros [|y l'] A; injection A; intros; subst; [congruence|destruct l'; discriminate].
        -- assert (E : match l, e with [], [_] => if (c =? cr)%N then ([], [cr; nl]) :: r else ([c], e) :: r | _, _ => (c :: l, e) :: r end = (c :: l, e) :: r).
           { destruct l as [|x l]; [|reflexivity]. destruct e as [|a [|b e]]; try reflexivity. exfalso. now apply K. }
           rewrite E. split; [|reflexivity]. constructor; auto.
           ++ intros [A|A]; [congruence|auto].
           ++ destruct He as [[-> He]|He]; [left; split; auto|now right].
              intros [|y l'] A; injection A; intros; subst.
              ** now apply K.
              ** now apply (He l').
Qed.

Lemma unchop_app : forall a b, unchop (a ++ b) = unchop a ++ unchop b.
Proof. intros. unfold unchop. now rewrite flat_map_app. Qed.

Lemma newlines_app : forall a b, (newlines (a ++ b) = newlines a + newlines b)%N.
Proof. intros. unfold newlines. rewrite count_occ_app. lia. Qed.
Lemma newlines_count : forall s, count_nl s = newlines s.
Proof.
  intro s. unfold count_nl, newlines. f_equal. induction s as [|c s IH]; [reflexivity|]. cbn [filter count_occ].
  destruct (N.eq_dec c nl) as [->|A].
  - change (N.eqb nl nl) with true. cbn [length]. f_equal. exact IH.
  - replace (N.eqb nl c) with false; [exact IH|]. symmetry. apply N.eqb_neq. congruence.
Qed.

Section Split.
  Variable k : lang.
  Hypothesis K : sane k.

  Lemma white_nl : white k nl = true. Proof. apply (sane_white K). cbn. auto 6. Qed.
  Lemma white_cr : white k cr = true. Proof. apply (sane_white K). cbn. auto 6. Qed.

  Lemma all_white_app : forall a b, all_white k a -> all_white k b -> all_white k (a ++ b).
  Proof. intros a b A B c H. apply in_app_iff in H as [H|H]; auto. Qed.
  Lemma all_white_nil : all_white k []. Proof. intros c []. Qed.
  Lemma blank_white : forall s, blank k s = true <-> all_white k s.
  Proof. intro s. unfold blank. rewrite forallb_forall. reflexivity. Qed.
  Lemma not_blank : forall s, blank k s = false -> exists c, In c s /\ white k c = false.
  Proof.
    induction s as [|c s IH]; cbn; [discriminate|]. destruct (white k c) eqn:E; cbn.
    - intro H. destruct (IH H) as (x & A & B). eauto.
    - intros _. eauto.
  Qed.
  Definition ending (e : str) : Prop := e = [nl] \/ e = [cr; nl].
  Lemma ending_white : forall e, ending e -> all_white k e.
  Proof. intros e [-> | ->] c H; repeat destruct H as [<-|H]; try destruct H; apply white_nl || apply white_cr. Qed.
  Lemma ending_done : forall a e, ending e -> line_done (a ++ e).
  Proof. intros a e [-> | ->]; right; [exists a|exists (a ++ [cr])]; now rewrite <- ?app_assoc. Qed.
  Lemma ending_over : forall e s, ending e -> line_over (e ++ s).
  Proof. intros e s [-> | ->]; right; cbn; eauto. Qed.
  Lemma ending_count : forall e, ending e -> newlines e = 1%N.
  Proof. intros e [-> | ->]; reflexivity. Qed.

  (** The line [l], without a newline, lies within any stretch of whole lines that begins before its end. *)
  Lemma solid_one : forall l, ~ In nl l -> (exists c, In c l /\ white k c = false) -> solid k l.
  Proof.
    intros l H (c & Hc & Hw) a m b E [->|(a' & ->)] [->|[(b' & ->)|(b' & ->)]].
    - rewrite app_nil_r in E. cbn in E. subst. eauto.
    - exfalso. apply H. rewrite E. cbn. apply in_app_iff. right. now left.
    - exfalso. apply H. rewrite E. cbn. apply in_app_iff. right. right. now left.
    - exfalso. apply H. rewrite E. rewrite !in_app_iff. left. right. now left.
    - exfalso. apply H. rewrite E. rewrite !in_app_iff. left. right. now left.
    - exfalso. apply H. rewrite E. rewrite !in_app_iff. left. right. now left.
  Qed.

  Lemma app_two : forall A (a b c d : list A), a ++ b = c ++ d -> (exists x, c = a ++ x /\ b = x ++ d) \/ (exists x, a = c ++ x /\ d = x ++ b).
  Proof.
    induction a as [|x a IH]; intros b c d H; cbn in H.
    - left. exists c. auto.
    - destruct c as [|y c].
      + right. exists (x :: a). cbn in H. auto.
      + injection H as -> H. destruct (IH _ _ _ H) as [(z & -> & ->)|(z & -> & ->)]; [left|right]; exists z; auto.
  Qed.

  (** A further solid line. *)
  Lemma solid_more : forall s e l, solid k s -> (e = [nl] /\ (forall s', s <> s' ++ [cr]) \/ e = [cr; nl]) -> ~ In nl l -> (exists c, In c l /\ white k c = false) -> solid k (s ++ e ++ l).
  Proof.
    intros s e l S He Hl Hc a m b E Ha Hb.
    (* where does [b] begin? *)
    rewrite app_assoc in E. destruct (app_two _ (s ++ e) l (a ++ m) b) as [(x & E1 & E2)|(x & E1 & E2)]; [now rewrite E, <- app_assoc| |].
    - (* it begins in the last line, so it is empty *)
      assert (b = []) as ->. { destruct Hb as [->|[(b' & ->)|(b' & ->)]]; auto; exfalso; apply Hl; rewrite E2; apply in_app_iff; right; cbn; auto. }
      rewrite app_nil_r in E2. subst x. clear E.
      (* where does the stretch begin? *)
      destruct (app_two _ a m (s ++ e) l) as [(x & F1 & F2)|(x & F1 & F2)]; [now rewrite E1| |].
      + destruct Hc as (c & Hc & W). exists c. split; auto. rewrite F2. apply in_app_iff. auto.
      + destruct Ha as [->|(a' & ->)].
        * destruct Hc as (c & Hc & W). exists c. split; auto.
          symmetry in F1. apply app_eq_nil in F1 as [F _]. apply app_eq_nil in F as [_ F]. subst e. destruct He as [[He _]|He]; discriminate.
        * destruct (rev x) as [|y x'] eqn:Ex; [apply (f_equal (@rev _)) in Ex; rewrite rev_involutive in Ex; cbn in Ex; subst x|].
          -- cbn in F2. subst m. exact Hc.
          -- apply (f_equal (@rev _)) in Ex. rewrite rev_involutive in Ex. cbn in Ex. subst x. rewrite app_assoc in F1.
             apply app_inj_tail in F1 as [_ <-]. exfalso. apply Hl. rewrite F2. rewrite !in_app_iff. left. right. now left.
    - (* it begins before: within [s ++ e] *)
      destruct (app_two _ s e (a ++ m) x E1) as [(y & F1 & F2)|(y & F1 & F2)].
      + (* in the line end *)
        destruct He as [[-> He] | ->].
        * destruct y as [|y1 y].
          -- rewrite app_nil_r in F1. cbn in F2. subst x. apply (S a m []); [now rewrite app_nil_r|auto|now left].
          -- injection F2 as <- F2. symmetry in F2. apply app_eq_nil in F2 as [-> ->]. cbn in E2. subst b.
             exfalso. destruct Hb as [->|[(b' & ->)|(b' & ->)]].
             ++ destruct Hc as (c & [] & _).
             ++ apply Hl. now left.
             ++ apply Hl. right. now left.
        * destruct y as [|y1 y].
          -- rewrite app_nil_r in F1. apply (S a m []); [now rewrite app_nil_r|auto|now left].
          -- injection F2 as <- F2. destruct y as [|y2 y].
             ++ cbn in F2. subst x. (* the stretch ends between CR and LF *)
                destruct (rev m) as [|z m'] eqn:Em.
                ** apply (f_equal (@rev _)) in Em. rewrite rev_involutive in Em. cbn in Em. subst m. rewrite app_nil_r in F1. subst a.
                   exfalso. destruct Ha as [Ha|(a' & Ha)]; [destruct s; discriminate|]. apply app_inj_tail in Ha as [_ Ha]. discriminate.
                ** apply (f_equal (@rev _)) in Em. rewrite rev_involutive in Em. cbn in Em. subst m. rewrite app_assoc in F1. apply app_inj_tail in F1 as [F1 _].
                   destruct (S a (rev m') []) as (c & Hc' & W); [now rewrite app_nil_r|auto|now left|]. exists c. split; auto. apply in_app_iff. auto.
             ++ injection F2 as <- F2. symmetry in F2. apply app_eq_nil in F2 as [-> ->]. cbn in E2. subst b.
                exfalso. destruct Hb as [->|[(b' & ->)|(b' & ->)]].
                ** destruct Hc as (c & [] & _).
                ** apply Hl. now left.
                ** apply Hl. right. now left.
      + (* in the text before *)
        assert (x = y ++ e) as ->. { rewrite F1, <- app_assoc in E1. now apply app_inv_head in E1. }
        rewrite <- app_assoc in E2. subst b.
        apply (S a m y).
        * rewrite F1. now rewrite <- app_assoc.
        * auto.
        * destruct y as [|y1 y]; [now left|]. destruct Hb as [Hb|[(b' & Hb)|(b' & Hb)]].
          -- discriminate.
          -- injection Hb as -> _. right. left. eauto.
          -- injection Hb as -> Hb. destruct y as [|y2 y].
             ++ exfalso. cbn in Hb. destruct He as [[-> He] | ->]; cbn in Hb; [|discriminate].
                apply (He (a ++ m)). rewrite F1. reflexivity.
             ++ injection Hb as -> _. right. right. eauto.
  Qed.

  Definition rel (head T : str) (se : nat * nat) (bi : str * str) : Prop :=
    fst bi = head ++ firstn (fst se) T /\ snd bi = cut_out T se /\ snd se <= length T /\ solid k (snd bi).

  Lemma firstn_pre : forall (a b : str), firstn (length a) (a ++ b) = a.
  Proof. intros. now rewrite firstn_app, Nat.sub_diag, firstn_all, app_nil_r. Qed.
  Lemma cut_mid : forall a m b : str, cut_out (a ++ m ++ b) (length a, length a + length m) = m.
  Proof.
    intros. unfold cut_out. cbn [fst snd]. rewrite skipn_app, Nat.sub_diag, skipn_all. cbn [skipn app].
    replace (length a + length m - length a) with (length m) by lia. apply firstn_pre.
  Qed.

  Definition after (it e : str) (ls : list (str * str)) : Prop :=
    e = [nl] /\ (forall s', it <> s' ++ [cr]) \/ e = [cr; nl] \/ e = [] /\ ls = [].

  Lemma split_go_ok : forall ls, lines_ok ls -> forall head T,
    (forall pre g n ss, all_white k g -> line_done g -> (n <= newlines g)%N -> T = pre ++ g ++ unchop ls ->
      exists more its, split_go k (length (pre ++ g)) ls true ss = Ok (rev ss ++ more) /\
        splits k n (head ++ pre) (g ++ unchop ls) its /\ Forall2 (rel head T) more its) /\
    (forall pre it e ss, solid k it -> after it e ls -> T = pre ++ it ++ e ++ unchop ls ->
      exists it' rest more its,
        split_go k (length (pre ++ it ++ e)) ls false ((length pre, length pre + length it) :: ss) =
          Ok (rev ss ++ (length pre, length pre + length it') :: more) /\
        it ++ e ++ unchop ls = it' ++ rest /\ solid k it' /\ line_over rest /\ splits k 2 (head ++ pre ++ it') rest its /\
        Forall2 (rel head T) more its).
  Proof.
    induction 1 as [|l Hl Hn|l e ls Hn He Hls IH]; intros head T.
    - split.
      + intros pre g n ss Wg Dg Ng ET. exists [], []. cbn [split_go]. rewrite app_nil_r. split; [reflexivity|]. split; [|constructor].
        cbn. rewrite app_nil_r. now constructor.
      + intros pre it e ss S A ET. exists it, e, [], []. cbn [split_go rev]. split; [reflexivity|].
        cbn. rewrite app_nil_r. split; [reflexivity|]. split; auto.
        assert (We : all_white k e /\ line_over e).
        { destruct A as [[-> _]|[->|[-> _]]].
          - split; [apply ending_white; now left|apply (ending_over [nl] []); now left].
          - split; [apply ending_white; now right|apply (ending_over [cr; nl] []); now right].
          - split; [apply all_white_nil|now left]. }
        destruct We. split; auto. split; [now constructor|constructor].
    - split.
      + intros pre g n ss Wg Dg Ng ET. cbn [split_go]. destruct (blank k l) eqn:B.
        * exists [], []. cbn [split_go]. rewrite app_nil_r. split; [reflexivity|]. split; [|constructor].
          constructor. apply all_white_app; auto. cbn. rewrite !app_nil_r. now apply blank_white.
        * assert (S : solid k l) by (apply solid_one; [auto|now apply not_blank]).
          exists [(length (pre ++ g), length (pre ++ g) + length l)], [(head ++ pre ++ g, l)].
          cbn [rev unchop flat_map fst snd] in *. rewrite app_nil_r in ET |- *. rewrite app_nil_r in ET |- *. split; [reflexivity|]. split.
          -- replace (g ++ l) with (g ++ l ++ []) by now rewrite app_nil_r. rewrite (app_assoc head). constructor; auto; [now left|constructor; apply all_white_nil].
          -- constructor; [|constructor]. unfold rel. cbn [fst snd]. subst T. rewrite (app_assoc pre g l). split; [now rewrite firstn_pre|].
             split; [|split; auto]. 
             ++ replace ((pre ++ g) ++ l) with ((pre ++ g) ++ l ++ []) by now rewrite app_nil_r. now rewrite cut_mid.
             ++ rewrite (app_length (pre ++ g)). lia.
      + intros pre it e ss S [[-> He]|[->|[_ A]]] ET; [| |discriminate].
        1,2: cbn [split_go]; destruct (blank k l) eqn:B.
        1,3: cbn [unchop flat_map fst snd] in *; rewrite !app_nil_r in *; apply blank_white in B;
             eexists it, (_ ++ l), [], []; cbn [split_go rev]; (split; [reflexivity|]); (split; [reflexivity|]); (split; [exact S|]);
             (split; [apply ending_over; unfold ending; auto|]); split; [apply splits_none|constructor]; apply all_white_app; auto;
             apply ending_white; unfold ending; auto.
        1: set (e := [nl]) in *. 2: set (e := [cr; nl]) in *.
        1,2: exists (it ++ e ++ l), [], [], []; cbn [rev unchop flat_map fst snd] in *; rewrite !app_nil_r in *; cbn [split_go rev];
             cbn [app]; split; [rewrite !app_length; do 4 f_equal; lia|]; split; [reflexivity|];
             split; [apply solid_more; auto; now apply not_blank|]; split; [now left|]; split; [constructor; apply all_white_nil|constructor].
    - assert (Ee : ending e) by (destruct He as [[-> _]| ->]; unfold ending; auto).
      destruct (IH head T) as [IHn IHc]. split.
      + intros pre g n ss Wg Dg Ng ET. cbn [split_go]. destruct (blank k l) eqn:B.
        * apply blank_white in B. cbn [unchop flat_map fst snd] in *. rewrite <- app_assoc in ET |- *.
          destruct (IHn pre (g ++ l ++ e) n ss) as (more & its & E & S & F).
          -- repeat apply all_white_app; auto. now apply ending_white.
          -- rewrite app_assoc. now apply ending_done.
          -- rewrite newlines_app. lia.
          -- rewrite ET. now rewrite <- !app_assoc.
          -- exists more, its. split; [|split; auto].
             ++ rewrite <- E. f_equal. rewrite !app_length. lia.
             ++ now rewrite <- !app_assoc in S.
        * cbn [unchop flat_map fst snd] in *. rewrite <- app_assoc in ET |- *.
          assert (S : solid k l) by (apply solid_one; [auto|now apply not_blank]).
          destruct (IHc (pre ++ g) l e ss S) as (it' & rest & more & its & E & E2 & S' & L & Sp & F).
          -- destruct He as [He| ->]; unfold after; auto.
          -- rewrite ET. now rewrite <- !app_assoc.
          -- exists ((length (pre ++ g), length (pre ++ g) + length it') :: more), ((head ++ pre ++ g, it') :: its). split; [|split].
             ++ rewrite <- E. f_equal. rewrite !app_length. lia.
             ++ fold (unchop ls). rewrite E2. rewrite (app_assoc head). constructor; auto. now rewrite <- !app_assoc in *.
             ++ constructor; auto. unfold rel. cbn [fst snd]. fold (unchop ls) in ET. rewrite E2 in ET.
                rewrite ET. rewrite (app_assoc pre g). split; [now rewrite firstn_pre|]. split; [now rewrite cut_mid|]. split; auto.
                rewrite (app_length (pre ++ g)), (app_length it'). lia.
      + intros pre it e0 ss S A ET. cbn [split_go]. cbn [unchop flat_map fst snd] in *. rewrite <- app_assoc in ET |- *.
        assert (A' : e0 = [nl] /\ (forall s', it <> s' ++ [cr]) \/ e0 = [cr; nl]) by (destruct A as [A|[A|[_ A]]]; auto; discriminate).
        assert (E0 : ending e0) by (destruct A' as [[-> _]| ->]; unfold ending; auto).
        destruct (blank k l) eqn:B.
        * apply blank_white in B.
          destruct (IHn (pre ++ it) (e0 ++ l ++ e) 2%N ((length pre, length pre + length it) :: ss)) as (more & its & E & Sp & F).
          -- repeat apply all_white_app; auto; now apply ending_white.
          -- rewrite app_assoc. now apply ending_done.
          -- rewrite !newlines_app, (ending_count e0 E0), (ending_count e Ee). lia.
          -- rewrite ET. now rewrite <- !app_assoc.
          -- exists it, (e0 ++ l ++ e ++ unchop ls), more, its. split; [|split; [reflexivity|split; auto; split; [now apply ending_over|split; auto]]].
             ++ etransitivity; [|etransitivity; [exact E|]]; [f_equal; rewrite !app_length; lia|cbn [rev]; now rewrite <- app_assoc].
             ++ now rewrite <- !app_assoc in *.
        * destruct (IHc pre (it ++ e0 ++ l) e ss) as (it' & rest & more & its & E & E2 & S' & L & Sp & F).
          -- apply solid_more; auto. now apply not_blank.
          -- destruct He as [[-> He]| ->]; unfold after; auto. left. split; auto. intros s' Q.
             destruct (rev l) as [|x l'] eqn:El.
             ++ apply (f_equal (@rev _)) in El. rewrite rev_involutive in El. cbn in El. subst l. discriminate.
             ++ apply (f_equal (@rev _)) in El. rewrite rev_involutive in El. cbn in El. subst l. rewrite !app_assoc in Q.
                apply app_inj_tail in Q as [_ ->]. now apply (He (rev l')).
          -- rewrite ET. now rewrite <- !app_assoc.
          -- exists it', rest, more, its. split; [|split; [|split; auto]].
             ++ rewrite <- E. f_equal; [|do 2 f_equal]; rewrite !app_length; lia.
             ++ rewrite <- E2. now rewrite <- !app_assoc.
  Qed.

  Theorem split_items_ok : forall head T, exists ps its, split_items k T = Ok ps /\ splits k 0 head T its /\ Forall2 (rel head T) ps its.
  Proof.
    intros head T. destruct (chop_ok T) as [O U]. destruct (split_go_ok _ O head T) as [H _].
    destruct (H [] [] 0%N []) as (more & its & E & S & F); try apply all_white_nil; try (now left); try (cbn; lia); [now rewrite U|].
    exists more, its. split; [exact E|]. split; auto. rewrite app_nil_r in S. cbn in S. now rewrite U in S.
  Qed.
End Split.
