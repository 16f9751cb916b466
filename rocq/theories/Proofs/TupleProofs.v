(** Proofs about tuple names. *)
From Coq Require Import String List ZArith NArith Bool Arith Lia.
From Verif Require Import Model.Base Model.Value Model.TableOps Model.Tuple Spec.TupleSpec.
Import ListNotations.

Section ShapeInd.
  Variable P : shape -> Prop.
  Hypothesis HL : forall t, P (Leaf t).
  Hypothesis HN : forall l, Forall P l -> P (Node l).
  Fixpoint shape_ind2 (s : shape) : P s :=
    match s with
    | Leaf t => HL t
    | Node l => HN l ((fix go (l : list shape) : Forall P l :=
                         match l with [] => Forall_nil P | x :: l => Forall_cons x (shape_ind2 x) (go l) end) l)
    end.
End ShapeInd.
Section SplitInd.
  Variable P : split -> Prop.
  Hypothesis HL : forall t, P (STy t).
  Hypothesis HN : forall l, Forall P l -> P (STuple l).
  Fixpoint split_ind2 (s : split) : P s :=
    match s with
    | STy t => HL t
    | STuple l => HN l ((fix go (l : list split) : Forall P l :=
                         match l with [] => Forall_nil P | x :: l => Forall_cons x (split_ind2 x) (go l) end) l)
    end.
End SplitInd.

Lemma proper_node : forall leaf l, proper leaf (Node l) <-> l <> [] /\ Forall (proper leaf) l.
Proof.
  intros leaf l. cbn [proper].
  assert (H : (fix all (l : list shape) : Prop := match l with [] => True | x :: l => proper leaf x /\ all l end) l
              <-> Forall (proper leaf) l).
  { induction l as [|x l IH]; [split; auto|]. split.
    - intros [H1 H2]. constructor; tauto.
    - intros H. inversion H; subst. tauto. }
  tauto.
Qed.

Lemma join_cons : forall sep w ws, ws <> [] -> join sep (w :: ws) = w ++ sep ++ join sep ws.
Proof. intros sep w [|v ws] H; [congruence|reflexivity]. Qed.

Lemma flat_join : forall args : list ty, args <> [] ->
  flat_map (fun a => tyname a ++ lit "-") args = join (lit "-") (map tyname args) ++ lit "-".
Proof.
  induction args as [|a args IH]; intros H; [congruence|].
  destruct args as [|b args]; [cbn; now rewrite app_nil_r|].
  change (flat_map (fun a => tyname a ++ lit "-") (a :: b :: args))
    with ((tyname a ++ lit "-") ++ flat_map (fun a => tyname a ++ lit "-") (b :: args)).
  rewrite IH by discriminate. cbn [map]. rewrite (join_cons _ (tyname a)) by discriminate.
  now rewrite <- !app_assoc.
Qed.

Lemma tuple_name_join : forall args, args <> [] ->
  tuple_name args = lit "U_" ++ join (lit "-") (map tyname args) ++ lit "_".
Proof.
  intros args H. unfold tuple_name. rewrite flat_join by auto.
  rewrite app_assoc. change (lit "-") with [45%N] at 2. rewrite removelast_last. now rewrite <- app_assoc.
Qed.

Lemma name_written : forall leaf s, proper leaf s -> tyname (build s) = written s.
Proof.
  intros leaf. induction s as [t|l IH] using shape_ind2; intros H; [reflexivity|].
  apply proper_node in H. destruct H as [Hn H].
  change (tyname (build (Node l))) with (tuple_name (map build l)).
  rewrite tuple_name_join by (destruct l; [congruence|discriminate]).
  change (written (Node l)) with (lit "U_" ++ join (lit "-") (map written l) ++ lit "_").
  do 3 f_equal. rewrite map_map. apply map_ext_in. intros x I.
  rewrite Forall_forall in IH, H. auto.
Qed.

(** ** The parser on written names *)
Fixpoint split_of (s : shape) : split :=
  match s with Leaf t => STy (tyname t) | Node l => STuple (map split_of l) end.

Definition ends (r : str) : Prop := r = [] \/ exists c r', r = c :: r' /\ (c = 45%N \/ c = 95%N).

Lemma till_plain : forall w r, ~ In 45%N w -> ~ In 95%N w -> ends r -> till_sep (w ++ r) = (w, r).
Proof.
  induction w as [|c w IH]; intros r H1 H2 He.
  - cbn [app]. destruct He as [->|(c & r' & -> & [->| ->])]; reflexivity.
  - cbn [app till_sep]. destruct (N.eqb_spec c 45) as [->|]; [destruct H1; now left|].
    destruct (N.eqb_spec c 95) as [->|]; [destruct H2; now left|]. cbn [orb].
    rewrite IH; auto; intros I; [apply H1|apply H2]; now right.
Qed.

Lemma not_tuple_start : forall (X : Type) (w r : str) (a : str -> X) (b : X), w <> [] -> ~ In 95%N w -> ends r ->
  match w ++ r with 85%N :: 95%N :: r => a r | _ => b end = b \/ (w = [85%N] /\ exists r', r = 95%N :: r').
Proof.
  intros X w r a b Hn H He. destruct w as [|c w]; [congruence|].
  destruct (N.eq_dec c 85) as [->|n].
  - destruct w as [|d w].
    + cbn. destruct He as [->|(c & r' & -> & [->| ->])]; [now left|now left|right; eauto].
    + left. cbn. assert (d <> 95%N) by (intros ->; apply H; right; now left).
      destruct d as [|p]; [reflexivity|]. do 8 (destruct p as [p|p|]; try reflexivity; try congruence).
  - left. cbn. destruct c as [|p]; [reflexivity|]. do 8 (destruct p as [p|p|]; try reflexivity; try congruence).
Qed.

Lemma no_final_node : forall l, no_final_U (Node l) <->
  (forall l' t, l = l' ++ [Leaf t] -> tyname t <> lit "U") /\ Forall no_final_U l.
Proof.
  intros l. cbn [no_final_U].
  assert (H : (fix all (l : list shape) : Prop := match l with [] => True | x :: l => no_final_U x /\ all l end) l
              <-> Forall no_final_U l).
  { induction l as [|x l IH]; [split; auto|]. split.
    - intros [H1 H2]. constructor; tauto.
    - intros H. inversion H; subst. tauto. }
  tauto.
Qed.

Definition tail (l : list shape) : str := flat_map (fun s => 45%N :: written s) l.
Lemma join_tail : forall x l, join (lit "-") (map written (x :: l)) = written x ++ tail l.
Proof.
  intros x l. revert x. induction l as [|y l IH]; intros x; [cbn; now rewrite app_nil_r|].
  cbn [map]. rewrite join_cons by discriminate. cbn [tail flat_map]. cbn [map] in IH. rewrite IH. reflexivity.
Qed.
Lemma written_node : forall x l, written (Node (x :: l)) = 85%N :: 95%N :: written x ++ tail l ++ [95%N].
Proof.
  intros. change (written (Node (x :: l))) with (lit "U_" ++ join (lit "-") (map written (x :: l)) ++ lit "_").
  rewrite join_tail, <- app_assoc. reflexivity.
Qed.

(** The text after [s] does not turn a leaf called U into the start of a tuple. *)
Definition safe (s : shape) (r : str) : Prop := forall t r', s = Leaf t -> tyname t = lit "U" -> r <> 95%N :: r'.

Section Parse.
  Variable types : str -> option ty.

  Definition reads (s : shape) : Prop := proper (plain types) s -> no_final_U s -> forall fuel r, ends r -> safe s r ->
    length (written s ++ r) < fuel -> parse_split fuel (written s ++ r) = Some (split_of s, r).

  Lemma reads_more : forall l, Forall reads l -> Forall (proper (plain types)) l -> Forall no_final_U l ->
    (forall l' t, l = l' ++ [Leaf t] -> tyname t <> lit "U") -> forall fuel r, length (tail l ++ 95%N :: r) < fuel ->
    parse_more fuel (tail l ++ 95%N :: r) = (map split_of l, 95%N :: r).
  Proof.
    induction l as [|x l IH]; intros HR HP HU HL fuel r Hf; (destruct fuel as [|fuel]; [lia|]).
    - reflexivity.
    - inversion HR as [|? ? Rx Rl]; inversion HP as [|? ? Px Pl]; inversion HU as [|? ? Ux Ul]; subst.
      cbn [tail flat_map] in *. fold (tail l) in *. cbn [app] in *.
      cbn [parse_more]. rewrite <- app_assoc in *. rewrite Rx; auto.
      + rewrite IH; auto.
        * intros l' t ->. apply (HL (x :: l') t). reflexivity.
        * cbn [length] in Hf. rewrite app_length in Hf. lia.
      + destruct l as [|y l]; right; [exists 95%N, r|exists 45%N, (written y ++ tail l ++ 95%N :: r)].
        * auto.
        * split; [|auto]. cbn. now rewrite <- app_assoc.
      + intros t r' -> HUt. destruct l as [|y l]; [|cbn; congruence].
        intros _. exact (HL [] t eq_refl HUt).
      + cbn [length] in Hf. lia.
  Qed.

  Lemma reads_all : forall s, reads s.
  Proof.
    induction s as [t|l IH] using shape_ind2; intros HP HU fuel r He Hs Hf; (destruct fuel as [|fuel]; [lia|]).
    - cbn [written split_of] in *. destruct HP as (HT & Hn & H1 & H2).
      cbn [parse_split].
      destruct (not_tuple_start _ (tyname t) r
        (fun r => match parse_split fuel r with
                  | None => None
                  | Some (x, r) => let (xs, r) := parse_more fuel r in
                                   match r with 95%N :: r => Some (STuple (x :: xs), r) | _ => None end
                  end)
        (let (w, r) := till_sep (tyname t ++ r) in match w with [] => None | _ => Some (STy w, r) end) Hn H2 He)
        as [E|[E (r' & ->)]].
      + etransitivity; [exact E|]. rewrite till_plain by auto. destruct (tyname t); [congruence|reflexivity].
      + destruct (Hs t r' eq_refl E eq_refl).
    - apply proper_node in HP. destruct HP as [Hn HP]. apply no_final_node in HU. destruct HU as [HL HU].
      destruct l as [|x l]; [congruence|]. rewrite written_node in *. cbn [app] in *.
      inversion IH as [|? ? Rx Rl]; inversion HP as [|? ? Px Pl]; inversion HU as [|? ? Ux Ul]; subst.
      cbn [parse_split]. rewrite <- !app_assoc in *. cbn [length] in Hf. rewrite Rx; auto.
      + cbn [app]. rewrite reads_more; auto.
        * intros l' t ->. apply (HL (x :: l') t). reflexivity.
        * rewrite app_length in Hf. cbn [app] in Hf. lia.
      + destruct l as [|y l]; right; [exists 95%N, r|exists 45%N, (written y ++ tail l ++ 95%N :: r)].
        * auto.
        * split; [|auto]. cbn. now rewrite <- !app_assoc.
      + intros t r' -> HUt. destruct l as [|y l]; [|cbn; congruence].
        intros _. exact (HL [] t eq_refl HUt).
      + lia.
  Qed.

  Lemma conv_list : forall l, (fix conv (l : list split) : option (list ty) :=
          match l with
          | [] => Some []
          | x :: l => match convert_split types x with
                      | Some t => match conv l with Some ts => Some (t :: ts) | None => None end
                      | None => None
                      end
          end) l = (fix conv (l : list (option ty)) : option (list ty) :=
                      match l with
                      | [] => Some []
                      | x :: l => match x with
                                  | Some t => match conv l with Some ts => Some (t :: ts) | None => None end
                                  | None => None
                                  end
                      end) (map (convert_split types) l).
  Proof. induction l as [|x l IH]; [reflexivity|]. cbn. destruct (convert_split types x); [|reflexivity]. now rewrite IH. Qed.

  Lemma convert_of : forall s, proper (plain types) s -> convert_split types (split_of s) = Some (build s).
  Proof.
    induction s as [t|l IH] using shape_ind2; intros H.
    - cbn. apply H.
    - apply proper_node in H. destruct H as [_ H]. cbn [split_of convert_split build]. rewrite conv_list.
      assert (E : map (convert_split types) (map split_of l) = map Some (map build l)).
      { rewrite !map_map. apply map_ext_in. intros x I. rewrite Forall_forall in IH, H. auto. }
      rewrite E. clear. generalize (map build l) as ts. intros ts.
      enough (E : forall ts : list ty, (fix conv (l : list (option ty)) : option (list ty) :=
                      match l with
                      | [] => Some []
                      | x :: l => match x with
                                  | Some t => match conv l with Some ts => Some (t :: ts) | None => None end
                                  | None => None
                                  end
                      end) (map Some ts) = Some ts) by now rewrite E.
      induction ts0 as [|t ts0 IH]; [reflexivity|]. cbn. now rewrite IH.
  Qed.

  Lemma parse_back : forall l, proper (plain types) (Node l) -> no_final_U (Node l) ->
    parse_name types (tyname (build (Node l))) = Some (build (Node l)).
  Proof.
    intros l HP HU. rewrite (name_written _ _ HP). unfold parse_name, split_parse.
    assert (R : parse_split (S (length (written (Node l)))) (written (Node l)) = Some (split_of (Node l), [])).
    { generalize (reads_all (Node l) HP HU (S (length (written (Node l)))) []). rewrite app_nil_r. intros R. apply R.
      - now left.
      - intros t r' H. discriminate.
      - lia. }
    rewrite R. destruct l as [|x l]; [destruct HP; congruence|].
    rewrite written_node. apply (convert_of (Node (x :: l)) HP).
  Qed.

  (** ** What is parsed *)

  Lemma till_sep_eq : forall i w r, till_sep i = (w, r) -> i = w ++ r /\ ~ In 45%N w /\ ~ In 95%N w.
  Proof.
    induction i as [|c i IH]; intros w r H; cbn in H.
    - injection H as <- <-. cbn; tauto.
    - destruct (N.eqb_spec c 45) as [->|n1]; [injection H as <- <-; cbn; tauto|].
      destruct (N.eqb_spec c 95) as [->|n2]; [injection H as <- <-; cbn; tauto|].
      cbn [orb] in H. destruct (till_sep i) as [w' r'] eqn:E. injection H as <- <-.
      destruct (IH _ _ eq_refl) as (-> & A & B). cbn. intuition congruence.
  Qed.

  Fixpoint text (s : split) : str :=
    match s with STy w => w | STuple l => lit "U_" ++ join (lit "-") (map text l) ++ lit "_" end.
  Fixpoint good (s : split) : Prop :=
    match s with
    | STy w => w <> []
    | STuple l => l <> [] /\ (fix all (l : list split) : Prop := match l with [] => True | x :: l => good x /\ all l end) l
    end.

  Lemma parse_eq : forall fuel i,
    (forall x r, parse_split fuel i = Some (x, r) -> i = text x ++ r /\ good x) /\
    (forall xs r, parse_more fuel i = (xs, r) -> i = flat_map (fun x => 45%N :: text x) xs ++ r /\ Forall good xs).
  Proof.
    induction fuel as [|fuel IH]; intros i; [split; cbn; intros; [discriminate|]|].
    - injection H as <- <-. cbn. auto.
    - split.
      + intros x r H.
        assert (D : (exists r0, i = 85%N :: 95%N :: r0 /\
                       match parse_split fuel r0 with
                       | None => None
                       | Some (x, r) => let (xs, r) := parse_more fuel r in
                                        match r with 95%N :: r => Some (STuple (x :: xs), r) | _ => None end
                       end = Some (x, r)) \/
                    (let (w, r) := till_sep i in match w with [] => None | _ => Some (STy w, r) end) = Some (x, r)).
        { cbn [parse_split] in H. destruct i as [|c i]; [now right|].
          destruct (N.eq_dec c 85) as [->|n].
          - destruct i as [|d i]; [now right|]. destruct (N.eq_dec d 95) as [->|n].
            + left. exists i. auto.
            + right. destruct d as [|p]; [exact H|]. do 8 (destruct p as [p|p|]; try exact H; try congruence).
          - right. destruct c as [|p]; [exact H|]. do 8 (destruct p as [p|p|]; try exact H; try congruence). }
        clear H. destruct D as [(r0 & -> & H)|H].
        * destruct (parse_split fuel r0) as [[x0 r1]|] eqn:E1; [|discriminate].
          destruct (parse_more fuel r1) as [xs r2] eqn:E2.
          destruct (IH r0) as [A _]. destruct (A _ _ E1) as [-> G1]. destruct (IH r1) as [_ B]. destruct (B _ _ E2) as [-> G2].
          assert (exists r3, r2 = 95%N :: r3 /\ (STuple (x0 :: xs), r3) = (x, r)) as (r3 & -> & E).
          { destruct r2 as [|c r2]; [discriminate|]. destruct (N.eq_dec c 95) as [->|n]; [exists r2; split; congruence|].
            destruct c as [|p]; [discriminate|]. do 8 (destruct p as [p|p|]; try discriminate; try congruence). }
          injection E as <- <-. split.
          -- cbn [text]. change (lit "U_") with [85%N; 95%N]. change (lit "_") with [95%N]. cbn [app]. do 2 f_equal.
             assert (J : forall a l, join (lit "-") (map text (a :: l)) = text a ++ flat_map (fun x => 45%N :: text x) l).
             { intros a l. revert a. induction l as [|b l IHl]; intros a; [cbn; now rewrite app_nil_r|].
               cbn [map]. rewrite join_cons by discriminate. cbn [map] in IHl. rewrite IHl. reflexivity. }
             rewrite J. now rewrite <- !app_assoc.
          -- cbn. split; [discriminate|]. split; auto. clear -G2. induction G2; cbn; auto.
        * destruct (till_sep i) as [w r0] eqn:E. destruct w as [|c w]; [discriminate|]. injection H as <- <-.
          apply till_sep_eq in E. destruct E as (-> & _). cbn. split; [reflexivity|discriminate].
      + intros xs r H.
        assert (D : (exists r0, i = 45%N :: r0 /\
                       match parse_split fuel r0 with
                       | Some (x, r) => let (xs, r) := parse_more fuel r in (x :: xs, r)
                       | None => ([], i)
                       end = (xs, r)) \/ ([], i) = (xs, r)).
        { cbn [parse_more] in H. destruct i as [|c i]; [now right|].
          destruct (N.eq_dec c 45) as [->|n]; [left; eauto|].
          right. destruct c as [|p]; [exact H|]. do 8 (destruct p as [p|p|]; try exact H; try congruence). }
        clear H. destruct D as [(r0 & -> & H)|H].
        * destruct (parse_split fuel r0) as [[x0 r1]|] eqn:E1.
          -- destruct (parse_more fuel r1) as [ys r2] eqn:E2. injection H as <- <-.
             destruct (IH r0) as [A _]. destruct (A _ _ E1) as [-> G1]. destruct (IH r1) as [_ B]. destruct (B _ _ E2) as [-> G2].
             split; [|now constructor]. cbn. now rewrite <- app_assoc.
          -- injection H as <- <-. cbn. auto.
        * injection H as <- <-. cbn. auto.
  Qed.

  Lemma good_node : forall l, good (STuple l) <-> l <> [] /\ Forall good l.
  Proof.
    intros l. cbn [good].
    assert (H : (fix all (l : list split) : Prop := match l with [] => True | x :: l => good x /\ all l end) l
                <-> Forall good l).
    { induction l as [|x l IH]; [split; auto|]. split.
      - intros [H1 H2]. constructor; tauto.
      - intros H. inversion H; subst. tauto. }
    tauto.
  Qed.

  (** Converting back a parsed text whose leaves are registered under their own names. *)
  Lemma convert_sound : keyed types -> forall x t, good x -> convert_split types x = Some t ->
    exists s, build s = t /\ written s = text x /\ proper (fun t => types (tyname t) = Some t) s /\
              (forall l, x = STuple l -> exists l', s = Node l').
  Proof.
    intros K. induction x as [w|l IH] using split_ind2; intros t G H.
    - cbn in H. exists (Leaf t). cbn. rewrite (K _ _ H). repeat split; auto. intros l E; discriminate.
    - apply good_node in G. destruct G as [Hn G].
      cbn [convert_split] in H. rewrite conv_list in H.
      assert (exists ss, (fix conv (l : list (option ty)) : option (list ty) :=
                      match l with
                      | [] => Some []
                      | x :: l => match x with
                                  | Some t => match conv l with Some ts => Some (t :: ts) | None => None end
                                  | None => None
                                  end
                      end) (map (convert_split types) l) = Some (map build ss) /\ map written ss = map text l /\
              Forall (proper (fun t => types (tyname t) = Some t)) ss \/
              (fix conv (l : list (option ty)) : option (list ty) :=
                      match l with
                      | [] => Some []
                      | x :: l => match x with
                                  | Some t => match conv l with Some ts => Some (t :: ts) | None => None end
                                  | None => None
                                  end
                      end) (map (convert_split types) l) = None) as (ss & D).
      { clear H Hn. induction l as [|x l IHl]; [exists []; left; cbn; auto|].
        inversion IH as [|? ? I1 I2]; inversion G as [|? ? G1 G2]; subst.
        cbn. destruct (convert_split types x) as [tx|] eqn:E; [|exists []; now right].
        destruct (I1 _ G1 eq_refl) as (s & S1 & S2 & S3 & _). destruct (IHl I2 G2) as (ss & [(E1 & E2 & E3)|E1]).
        - exists (s :: ss). left. rewrite E1. cbn. split; [congruence|]. split; [congruence|]. now constructor.
        - exists []. right. now rewrite E1. }
      destruct D as [(D1 & D2 & D3)|D]; [|rewrite D in H; discriminate].
      rewrite D1 in H. injection H as <-.
      exists (Node ss). split; [reflexivity|]. split; [cbn [written text]; now rewrite D2|]. split; [|eauto].
      apply proper_node. split; auto. intros ->. destruct l; [congruence|discriminate].
  Qed.

  Lemma parse_sound : keyed types -> forall w t, parse_name types w = Some t ->
    exists l, build (Node l) = t /\ written (Node l) = w /\ tyname t = w /\
              proper (fun t => types (tyname t) = Some t) (Node l).
  Proof.
    intros K w t H. unfold parse_name, split_parse in H.
    assert (exists x r0, w = 85%N :: 95%N :: r0 /\ parse_split (S (length w)) w = Some (x, []) /\ convert_split types x = Some t)
      as (x & r0 & Ew & P & C).
    { destruct w as [|c i]; [discriminate|].
      destruct (N.eq_dec c 85) as [->|n];
        [|destruct c as [|p]; [discriminate|]; do 8 (destruct p as [p|p|]; try discriminate; try congruence)].
      destruct i as [|d i]; [discriminate|].
      destruct (N.eq_dec d 95) as [->|n];
        [|destruct d as [|p]; [discriminate|]; do 8 (destruct p as [p|p|]; try discriminate; try congruence)].
      destruct (parse_split (S (length (85%N :: 95%N :: i))) (85%N :: 95%N :: i)) as [[x [|]]|]; try discriminate.
      eauto 6. }
    assert (T : exists l, x = STuple l).
    { subst w. cbn [parse_split] in P. destruct (parse_split (length (85%N :: 95%N :: r0)) r0) as [[y r1]|]; [|discriminate].
      destruct (parse_more (length (85%N :: 95%N :: r0)) r1) as [ys r2].
      destruct r2 as [|c r2]; [discriminate|]. destruct (N.eq_dec c 95) as [->|n].
      - injection P as <- _. eauto.
      - destruct c as [|p]; [discriminate|]. do 8 (destruct p as [p|p|]; try discriminate; try congruence). }
    destruct (parse_eq (S (length w)) w) as [A _]. destruct (A _ _ P) as [E G]. rewrite app_nil_r in E.
    destruct (convert_sound K _ _ G C) as (s & S1 & S2 & S3 & S4). destruct T as (l & ->).
    destruct (S4 _ eq_refl) as (l' & ->). exists l'.
    split; [exact S1|]. split; [congruence|]. split; [|exact S3].
    rewrite <- S1, (name_written _ _ S3). congruence.
  Qed.
End Parse.

(** ** Distinct types have distinct names *)
Definition follows (r : str) : Prop :=
  r = [] \/ (exists r', r = 45%N :: r') \/ (exists r', r = 95%N :: r' /\ ends r').

Lemma follows_ends : forall r, follows r -> ends r.
Proof. intros r [->|[(r' & ->)|(r' & -> & _)]]; [now left|right; eauto|right; eauto]. Qed.

Lemma plain_split : forall w1 w2 r1 r2, ~ In 45%N w1 -> ~ In 95%N w1 -> ~ In 45%N w2 -> ~ In 95%N w2 ->
  ends r1 -> ends r2 -> w1 ++ r1 = w2 ++ r2 -> w1 = w2 /\ r1 = r2.
Proof.
  intros w1 w2 r1 r2 A1 B1 A2 B2 E1 E2 H.
  generalize (till_plain _ _ A1 B1 E1). rewrite H, (till_plain _ _ A2 B2 E2). intros E. split; congruence.
Qed.

Section Distinct.
  Variable types : str -> option ty.
  Notation ok := (proper (plain types)).

  Lemma head_ok : forall s r, ok s -> exists c w, written s ++ r = c :: w /\ c <> 45%N /\ c <> 95%N.
  Proof.
    intros [t|l] r H.
    - destruct H as (_ & Hn & H1 & H2). cbn [written]. destruct (tyname t) as [|c w]; [congruence|].
      exists c, (w ++ r). split; [reflexivity|]. split; intros ->; [apply H1|apply H2]; now left.
    - cbn. eexists; eexists. split; [reflexivity|]. split; discriminate.
  Qed.

  Definition unique (s : shape) : Prop := ok s -> forall s2 r1 r2, ok s2 -> follows r1 -> follows r2 ->
    written s ++ r1 = written s2 ++ r2 -> s = s2 /\ r1 = r2.

  Lemma follow_tail : forall l r, ends r -> follows (tail l ++ 95%N :: r).
  Proof.
    intros [|x l] r H; [right; right; exists r; auto|right; left; cbn; eauto].
  Qed.

  Lemma unique_tail : forall l, Forall unique l -> Forall ok l -> forall l2 r1 r2, Forall ok l2 -> ends r1 -> ends r2 ->
    tail l ++ 95%N :: r1 = tail l2 ++ 95%N :: r2 -> l = l2 /\ r1 = r2.
  Proof.
    induction l as [|x l IH]; intros HU HO l2 r1 r2 HO2 E1 E2 H.
    - destruct l2 as [|y l2]; [cbn in H; split; congruence|cbn in H; discriminate].
    - destruct l2 as [|y l2]; [cbn in H; discriminate|].
      inversion HU as [|? ? U1 U2]; inversion HO as [|? ? O1 O2]; inversion HO2 as [|? ? O3 O4]; subst.
      cbn [tail flat_map] in H. fold (tail l) in H. fold (tail l2) in H. cbn [app] in H. injection H as H.
      rewrite <- !app_assoc in H.
      destruct (U1 O1 y (tail l ++ 95%N :: r1) (tail l2 ++ 95%N :: r2) O3 (follow_tail l r1 E1) (follow_tail l2 r2 E2) H) as [<- H2].
      destruct (IH U2 O2 l2 r1 r2 O4 E1 E2 H2) as [<- <-]. auto.
  Qed.

  Lemma leaf_node : forall t l r1 r2, ok (Leaf t) -> ok (Node l) -> follows r1 -> follows r2 ->
    written (Leaf t) ++ r1 = written (Node l) ++ r2 -> False.
  Proof.
    intros t l r1 r2 H1 H2 F1 F2 H. destruct H1 as (_ & Hn & A & B). apply proper_node in H2. destruct H2 as [Hl H2].
    destruct l as [|x l]; [congruence|]. rewrite written_node in H. cbn [written app] in H.
    destruct (tyname t) as [|c w]; [congruence|]. cbn [app] in H. injection H as -> H.
    destruct w as [|d w].
    - cbn [app] in H. destruct F1 as [->|[(r' & ->)|(r' & -> & E)]]; try discriminate.
      injection H as ->. rewrite <- app_assoc in E.
      destruct (head_ok x ((tail l ++ [95%N]) ++ r2) (Forall_inv H2)) as (c & w & Ec & N1 & N2).
      rewrite Ec in E. destruct E as [E|(c' & r' & E & [->| ->])]; congruence.
    - cbn [app] in H. injection H as -> _. apply B. right. now left.
  Qed.

  Lemma unique_all : forall s, unique s.
  Proof.
    induction s as [t|l IH] using shape_ind2; intros HO s2 r1 r2 HO2 F1 F2 H.
    - destruct s2 as [t2|l2]; [|destruct (leaf_node t l2 r1 r2); auto].
      destruct HO as (T1 & _ & A1 & B1). destruct HO2 as (T2 & _ & A2 & B2). cbn [written] in H.
      destruct (plain_split _ _ _ _ A1 B1 A2 B2 (follows_ends _ F1) (follows_ends _ F2) H) as [E ->].
      split; auto. congruence.
    - destruct s2 as [t2|l2]; [destruct (leaf_node t2 l r2 r1); auto|].
      apply proper_node in HO. destruct HO as [N1 O1]. apply proper_node in HO2. destruct HO2 as [N2 O2].
      destruct l as [|x l]; [congruence|]. destruct l2 as [|y l2]; [congruence|].
      inversion IH as [|? ? I1 I2]; inversion O1 as [|? ? P1 P2]; inversion O2 as [|? ? Q1 Q2]; subst.
      rewrite !written_node in H. cbn [app] in H. injection H as H. rewrite <- !app_assoc in H. cbn [app] in H.
      destruct (I1 P1 y (tail l ++ 95%N :: r1) (tail l2 ++ 95%N :: r2) Q1
                  (follow_tail l _ (follows_ends _ F1)) (follow_tail l2 _ (follows_ends _ F2)) H) as [<- H2].
      destruct (unique_tail l I2 P2 l2 r1 r2 Q2 (follows_ends _ F1) (follows_ends _ F2) H2) as [<- <-]. auto.
  Qed.

  Lemma names_distinct : forall s1 s2, ok s1 -> ok s2 -> tyname (build s1) = tyname (build s2) -> s1 = s2.
  Proof.
    intros s1 s2 H1 H2 H. rewrite (name_written _ _ H1), (name_written _ _ H2) in H.
    destruct (unique_all s1 H1 s2 [] [] H2) as [-> _]; auto; try (now left). now rewrite !app_nil_r.
  Qed.

  Lemma ty_eqb_name : forall a b, ty_eqb a b = true -> tyname a = tyname b.
  Proof.
    intros [| | | | | |[n v]] [| | | | | |[n' v']] H; try discriminate; try reflexivity. cbn in *. now apply str_eqb_eq.
  Qed.
  Lemma types_distinct : forall s1 s2, ok s1 -> ok s2 -> ty_eqb (build s1) (build s2) = true -> build s1 = build s2.
  Proof. intros s1 s2 H1 H2 H. apply ty_eqb_name in H. now rewrite (names_distinct s1 s2 H1 H2 H). Qed.
End Distinct.

Lemma fields_numbered : forall l, exists fs, build (Node l) = TDef (TyDef (tyname (build (Node l))) (TProduct fs)) /\
  length fs = length l /\
  forall i s, nth_error l i = Some s -> nth_error fs i = Some (lit "t" ++ dec i, build s).
Proof.
  intros l. exists (combine (map (fun i => lit "t" ++ dec i) (seq 0 (length (map build l)))) (map build l)).
  split; [reflexivity|]. split; [rewrite combine_length, map_length, seq_length, !map_length; apply Nat.min_id|].
  rewrite map_length.
  assert (H : forall l k i s, nth_error l i = Some s ->
    nth_error (combine (map (fun i => lit "t" ++ dec i) (seq k (length l))) (map build l)) i = Some (lit "t" ++ dec (k + i), build s)).
  { clear. induction l as [|x l IH]; intros k [|i] s H; cbn [nth_error] in H; try discriminate.
    - injection H as ->. rewrite Nat.add_0_r. reflexivity.
    - cbn [length seq map combine nth_error]. rewrite (IH (S k) i s H). do 4 f_equal. lia. }
  intros i s E. rewrite (H l 0 i s E). reflexivity.
Qed.

Lemma flag_tuple : forall types l, proper (plain types) (Node l) -> no_final_U (Node l) ->
  type_flag types (tyname (build (Node l))) = Some (build (Node l)).
Proof.
  intros types l HP HU. assert (H := parse_back types l HP HU). unfold type_flag. rewrite H.
  rewrite (name_written _ _ HP). cbn [written]. reflexivity.
Qed.
Lemma flag_cases : forall types w, type_flag types w = types w \/
  type_flag types w = match parse_name types w with Some t => Some t | None => types w end.
Proof.
  intros types w. unfold type_flag. destruct w as [|c w]; [now left|].
  destruct (N.eq_dec c 85) as [->|n]; [|left; destruct c as [|p]; try reflexivity; repeat (destruct p; try reflexivity; try congruence)].
  destruct w as [|d w]; [now left|].
  destruct (N.eq_dec d 95) as [->|n]; [now right|left; destruct d as [|p]; try reflexivity; repeat (destruct p; try reflexivity; try congruence)].
Qed.
Lemma flag_registered : forall types w, (forall t, parse_name types w <> Some t) -> type_flag types w = types w.
Proof.
  intros types w H. destruct (flag_cases types w) as [->| ->]; auto.
  destruct (parse_name types w) as [t|]; auto. destruct (H t); auto.
Qed.
