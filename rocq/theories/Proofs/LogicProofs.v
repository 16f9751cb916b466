(** Logical and variadic ops. *)
From Coq Require Import String List ZArith NArith Bool Lia Arith.
From Verif Require Import Model.Base Model.Value Model.Exec Model.Intrinsics Spec.ExecSpec Spec.LogicSpec
  Proofs.RegistryProofs Proofs.LinkProofs.
Import ListNotations.
Set Implicit Arguments.

Section Logic.
Variable W : Type.
Local Notation node := (node W).
Local Notation compu := (compu W).

(** ** Accepted arguments *)
Lemma Forall2_len {A B} (R : A -> B -> Prop) l l' : Forall2 R l l' -> length l = length l'.
Proof. induction 1; cbn; auto. Qed.
Lemma concrete_ok (n : node) h : concrete n = Ok h <-> exists t', n_hold n = Ok (h, t') /\ ty_eqb t' (n_out n) = true.
Proof.
  unfold concrete. destruct (n_hold n) as [[h' t']| |]; cbn.
  - destruct (ty_eqb t' (n_out n)) eqn:E; split.
    + intro H. injection H as <-. eauto.
    + intros (t & H & _). injection H as -> ->. reflexivity.
    + discriminate.
    + intros (t & H & H'). injection H as -> ->. congruence.
  - split; [discriminate|]. intros (t & H & _). discriminate.
  - split; [discriminate|]. intros (t & H & _). discriminate.
Qed.

Lemma all_return_ok in_ty t (args : list node) : forall hs,
  all_return in_ty t args = Ok hs <-> Forall2 (accepted in_ty t) args hs.
Proof.
  induction args as [|n args IH]; intros hs; cbn [all_return].
  - split; intro H; [injection H as <-; constructor|inversion H; auto].
  - unfold supplied, returns.
    destruct (ty_eqb (n_in n) in_ty) eqn:E1; cbn [rbind].
    2:{ split; [discriminate|]. intro H. inversion H as [|? ? ? ? [Hx _]]; subst. congruence. }
    destruct (ty_eqb (n_out n) t) eqn:E2; cbn [rbind].
    2:{ split; [discriminate|]. intro H. inversion H as [|? ? ? ? [_ [Hx _]]]; subst. congruence. }
    destruct (concrete n) as [h| |] eqn:E3; cbn [rbind].
    + assert (E4 := proj1 (concrete_ok n h) E3).
      destruct (all_return in_ty t args) as [hs'| |]; cbn [rbind].
      * split.
        -- intro H. injection H as <-. constructor; [repeat split; auto|]. apply IH. auto.
        -- intro H. inversion H as [|? h' ? hs2 (A1 & A2 & A3) F]; subst. apply concrete_ok in A3.
           rewrite E3 in A3. injection A3 as <-. apply IH in F. injection F as <-. auto.
      * split; [discriminate|]. intro H. inversion H as [|? h' ? hs2 A F]; subst. apply IH in F. discriminate.
      * split; [discriminate|]. intro H. inversion H as [|? h' ? hs2 A F]; subst. apply IH in F. discriminate.
    + split; [discriminate|]. intro H. inversion H as [|? h' ? hs2 (A1 & A2 & A3) F]; subst. apply concrete_ok in A3. congruence.
    + split; [discriminate|]. intro H. inversion H as [|? h' ? hs2 (A1 & A2 & A3) F]; subst. apply concrete_ok in A3. congruence.
Qed.
Lemma all_return_of in_ty t (args : list node) hs e : all_return in_ty t args = Ok hs ->
  map (in_env e) hs = map (arg_of e) args /\ length hs = length args.
Proof.
  intro H. apply all_return_ok in H. split; [|symmetry; eapply Forall2_len; eauto].
  induction H as [|n h args hs (_ & _ & t' & E & _) _ IH]; cbn; auto.
  unfold arg_of at 1. rewrite E, IH. reflexivity.
Qed.
Lemma all_return_iff in_ty t (args : list node) :
  (exists hs, all_return in_ty t args = Ok hs) <-> forall n, In n args -> exists h, accepted in_ty t n h.
Proof.
  split.
  - intros [hs H] n Hn. apply all_return_ok in H. induction H as [|n' h args hs A _ IH]; [destruct Hn|].
    destruct Hn as [<-|Hn]; eauto.
  - intros H. induction args as [|n args IH].
    + exists []. reflexivity.
    + destruct (H n) as [h A]; [left; auto|]. destruct IH as [hs E]; [intros; apply H; right; auto|].
      exists (h :: hs). apply all_return_ok. apply all_return_ok in E. constructor; auto.
Qed.

(** ** The loop of a variadic op *)
Section Loop.
  Variables (T : Type) (from : value -> res T) (to : T -> value) (agg : T -> T -> T * bool) (v : value).

  Fixpoint loopf (ds : list compu) (prev : T) (w : W) : W * res T :=
    match ds with
    | [] => (w, Ok prev)
    | d :: ds => match d v w with
                 | (w1, Ok x) => match from x with
                                 | Ok y => let (z, exit) := agg prev y in if exit then (w1, Ok z) else loopf ds z w1
                                 | Err n => (w1, Err n)
                                 | Panic => (w1, Panic)
                                 end
                 | (w1, Err n) => (w1, Err n)
                 | (w1, Panic) => (w1, Panic)
                 end
    end.
  Definition final (e : env) (r : W * res T) : W * res (value * env) :=
    match r with (w, Ok z) => (w, Ok (to z, e)) | (w, Err n) => (w, Err n) | (w, Panic) => (w, Panic) end.

  Lemma nth_map_mid {A B} (f : A -> B) pre x l : nth_error (map f (pre ++ x :: l)) (length pre) = Some (f x).
  Proof. rewrite nth_error_map, nth_error_app2, Nat.sub_diag by auto. reflexivity. Qed.

  Lemma loop_eq e hs : forall pre prev w,
    run_act (map (@resolve W) (pre ++ hs)) [] (@agg_loop W T from to agg (length hs) (length pre) v prev) e w
    = final e (loopf (map (in_env e) hs) prev w).
  Proof.
    induction hs as [|h hs IH]; intros pre prev w; cbn [length agg_loop run_act map loopf]; [reflexivity|].
    rewrite nth_map_mid. unfold bind. change (in_env e h v w) with (resolve h v e w).
    destruct (resolve h v e w) as [w1 [x|n|]]; auto.
    unfold try. destruct (from x) as [y|n|]; auto. destruct (agg prev y) as [z [|]]; auto.
    specialize (IH (pre ++ [h]) z w1). rewrite <- app_assoc, app_length in IH. cbn [app length] in IH.
    rewrite Nat.add_1_r in IH. exact IH.
  Qed.
End Loop.

Lemma each_app v (ds1 ds2 : list compu) w us w' : each v (ds1 ++ ds2) w us w' <->
  exists us1 us2 w1, us = us1 ++ us2 /\ each v ds1 w us1 w1 /\ each v ds2 w1 us2 w'.
Proof.
  revert w us. induction ds1 as [|d ds1 IH]; intros w us; cbn [app].
  - split.
    + intro H. exists [], us, w. repeat split; auto. constructor.
    + intros (us1 & us2 & w1 & -> & H1 & H2). inversion H1; subst. auto.
  - split.
    + intro H. inversion H as [|? ? ? u w1 us' ? Hd He]; subst. apply IH in He.
      destruct He as (us1 & us2 & w2 & -> & H1 & H2). exists (u :: us1), us2, w2. repeat split; auto. econstructor; eauto.
    + intros (us1 & us2 & w1 & -> & H1 & H2). inversion H1 as [|? ? ? u w2 us' ? Hd He]; subst. cbn.
      econstructor; eauto. apply IH. eauto 6.
Qed.
Lemma each_length v (ds : list compu) w us w' : each v ds w us w' -> length us = length ds.
Proof. induction 1; cbn; auto. Qed.

(** ** And, or *)
Section Decide.
  (** [dec] is the value that decides *)
  Variable dec : bool.
  Definition step_of (prev next : bool) : bool * bool :=
    let x := if dec then prev || next else prev && next in (x, if dec then x else negb x).
  Definition total (bs : list bool) : bool := if dec then existsb (fun b => b) bs else forallb (fun b => b) bs.
  Definition undecided (bs : list bool) : Prop := 2 <= length bs -> total bs = negb dec.

  Lemma total_app a b : total (a ++ b) = if dec then total a || total b else total a && total b.
  Proof. unfold total. destruct dec; [apply existsb_app|apply forallb_app]. Qed.
  Lemma step_total bs b : bs <> [] -> step_of (total bs) b = (total (bs ++ [b]), Bool.eqb (total (bs ++ [b])) dec).
  Proof.
    intro N. unfold step_of. rewrite total_app. unfold total. destruct dec; cbn; rewrite ?orb_false_r, ?andb_true_r.
    - destruct (existsb _ bs || b); reflexivity.
    - destruct (forallb _ bs && b); reflexivity.
  Qed.

  (** values so far: [bs], not empty *)
  Lemma loop_value v (ds : list compu) : forall bs w b w', bs <> [] -> undecided bs \/ length bs = 1 ->
    (loopf as_bool step_of v ds (total bs) w = (w', Ok b) <->
     exists ds1 ds2 cs, ds = ds1 ++ ds2 /\ each v ds1 w (map VBool cs) w' /\ b = total (bs ++ cs) /\
       (ds2 = [] \/ (cs <> [] /\ total (bs ++ cs) = dec)) /\
       forall k, 0 < k -> k < length cs -> total (bs ++ firstn k cs) = negb dec).
  Proof.
    induction ds as [|d ds IH]; intros bs w b w' N U; cbn [loopf].
    - split.
      + intro H. injection H as <- <-. exists [], [], []. repeat split; auto; try apply each_none.
        * rewrite app_nil_r. reflexivity.
        * cbn. intros; lia.
      + intros (ds1 & ds2 & cs & E & He & -> & _ & _). symmetry in E. apply app_eq_nil in E. destruct E as [-> ->].
        inversion He as [? H1 H2|]; subst. destruct cs; [|discriminate]. rewrite app_nil_r. reflexivity.
    - split.
      + destruct (d v w) as [w1 [x|n|]] eqn:Ed; try discriminate.
        destruct x; cbn [as_bool]; try discriminate.
        rewrite (step_total _ N). destruct (Bool.eqb (total (bs ++ [b0])) dec) eqn:Eb.
        * intro H. injection H as <- <-. exists [d], ds, [b0]. apply eqb_prop in Eb. repeat split; auto.
          -- econstructor; [exact Ed|apply each_none].
          -- right. split; [discriminate|auto].
          -- cbn. intros; lia.
        * apply eqb_false_iff in Eb. intro H.
          assert (Eb' : total (bs ++ [b0]) = negb dec) by (destruct (total (bs ++ [b0])), dec; cbn in *; congruence).
          apply IH in H.
          2:{ destruct bs; discriminate. }
          2:{ left. intro. exact Eb'. }
          destruct H as (ds1 & ds2 & cs & -> & He & -> & St & Op). exists (d :: ds1), ds2, (b0 :: cs).
          rewrite <- app_assoc in *. cbn [app] in *. repeat split; auto.
          -- cbn. econstructor; eauto.
          -- destruct St as [->|[Nc Et]]; auto. right. split; [discriminate|auto].
          -- intros [|k] Hk Lk; [lia|]. cbn [firstn]. destruct k as [|k]; [exact Eb'|].
             cbn in Lk. specialize (Op (S k)). rewrite <- app_assoc in Op. cbn [app] in Op. apply Op; lia.
      + intros (ds1 & ds2 & cs & E & He & -> & St & Op). destruct ds1 as [|d1 ds1].
        * inversion He as [? H1 H2|]; subst. destruct cs; [|discriminate]. cbn in E. subst ds2.
          destruct St as [St|[St _]]; [discriminate|congruence].
        * cbn in E. injection E as <- ->. destruct cs as [|c cs]; [inversion He|]. cbn [map] in He.
          inversion He as [|? ? ? ? w1 ? ? Hd He']; subst.
          rewrite Hd. cbn [as_bool]. rewrite (step_total _ N).
          destruct cs as [|c2 cs].
          -- inversion He'; subst. cbn [app] in *.
             destruct (Bool.eqb (total (bs ++ [c])) dec) eqn:Eb; auto.
             destruct St as [->|[_ St]]; [reflexivity|]. rewrite St in Eb. rewrite eqb_reflx in Eb. discriminate.
          -- assert (Eb : total (bs ++ [c]) = negb dec) by (apply (Op 1); cbn; lia).
             rewrite Eb. replace (Bool.eqb (negb dec) dec) with false by (destruct dec; auto). rewrite <- Eb.
             apply IH.
             { destruct bs; discriminate. }
             { left. intro. exact Eb. }
             exists ds1, ds2, (c2 :: cs). rewrite <- !app_assoc. cbn [app]. repeat split; auto.
             ++ destruct St as [St|[_ St]]; auto. right. split; [discriminate|auto].
             ++ intros k Hk Lk. specialize (Op (S k)). cbn [firstn] in Op. rewrite <- app_assoc. cbn [app]. apply Op; cbn in *; lia.
  Qed.

  Lemma loop_stops v (ds : list compu) : forall bs w f w', bs <> [] -> undecided bs \/ length bs = 1 ->
    (loopf as_bool step_of v ds (total bs) w = (w', halt f) <->
     exists ds1 d ds2 cs w1, ds = ds1 ++ d :: ds2 /\ each v ds1 w (map VBool cs) w1 /\
       (cs <> [] -> total (bs ++ cs) = negb dec) /\
       (d v w1 = (w', halt f) \/ exists x, d v w1 = (w', Ok x) /\ ty_of x <> TBool /\ f = Some 1)).
  Proof.
    induction ds as [|d ds IH]; intros bs w f w' N U; cbn [loopf].
    - split.
      + destruct f; discriminate.
      + intros (ds1 & d & ds2 & cs & w1 & E & _). destruct ds1; discriminate.
    - split.
      + destruct (d v w) as [w1 [x|n|]] eqn:Ed.
        * destruct (as_bool x) as [b0|n|] eqn:Ex.
          -- destruct x; try discriminate. cbn in Ex. injection Ex as ->. rewrite (step_total _ N).
             destruct (Bool.eqb (total (bs ++ [b0])) dec) eqn:Eb; [destruct f; discriminate|].
             assert (Eb' : total (bs ++ [b0]) = negb dec).
             { apply eqb_false_iff in Eb. destruct (total (bs ++ [b0])), dec; cbn in *; congruence. }
             intro H. apply IH in H.
             2:{ destruct bs; discriminate. }
             2:{ left. intro. exact Eb'. }
             destruct H as (ds1 & d' & ds2 & cs & w2 & -> & He & Op & St). exists (d :: ds1), d', ds2, (b0 :: cs), w2.
             repeat split; auto.
             ++ cbn. econstructor; eauto.
             ++ intros _. destruct cs as [|c cs]; [exact Eb'|]. rewrite <- app_assoc in Op. apply Op. discriminate.
          -- intro H. assert (n = 1 /\ f = Some 1 /\ w1 = w') as (_ & -> & ->).
             { destruct x; cbn in Ex; try discriminate; injection Ex as <-; destruct f as [n|]; try discriminate;
               injection H as <- <-; auto. }
             exists [], d, ds, [], w. repeat split; auto; try apply each_none; try congruence.
             right. exists x. repeat split; auto. destruct x; discriminate.
          -- destruct x; discriminate.
        * intro H. exists [], d, ds, [], w. repeat split; auto; try apply each_none; try congruence. left. rewrite Ed.
          destruct f; try discriminate. injection H as <- <-. reflexivity.
        * intro H. exists [], d, ds, [], w. repeat split; auto; try apply each_none; try congruence. left. rewrite Ed.
          destruct f; try discriminate. injection H as <-. reflexivity.
      + intros (ds1 & d' & ds2 & cs & w1 & E & He & Op & St). destruct ds1 as [|d1 ds1].
        * inversion He as [? H1 H2|]; subst. destruct cs; [|discriminate]. cbn in E. injection E as <- <-.
          destruct St as [->|(x & -> & Tx & ->)].
          -- destruct f; reflexivity.
          -- destruct x; cbn in *; try reflexivity. congruence.
        * cbn in E. injection E as <- ->. destruct cs as [|c cs]; [inversion He|]. cbn [map] in He.
          inversion He as [|? ? ? ? w2 ? ? Hd He']; subst.
          rewrite Hd. cbn [as_bool]. rewrite (step_total _ N).
          assert (Eb : total (bs ++ [c]) = negb dec).
          { specialize (Op ltac:(discriminate)). change (bs ++ c :: cs) with (bs ++ [c] ++ cs) in Op.
            rewrite app_assoc, total_app in Op. destruct dec, (total (bs ++ [c])), (total cs); cbn in *; congruence. }
          rewrite Eb. replace (Bool.eqb (negb dec) dec) with false by (destruct dec; auto). rewrite <- Eb.
          apply IH.
          { destruct bs; discriminate. }
          { left. intro. exact Eb. }
          exists ds1, d', ds2, cs, w1. repeat split; auto. intros Nc. rewrite <- app_assoc. apply Op. discriminate.
  Qed.

  Definition decide_op := @variadic_agnostic W bool TBool as_bool VBool step_of.

  Lemma decide_compiles in_ty (args : list node) t : (exists s, decide_op in_ty args = Ok (s, t)) <->
    args <> [] /\ t = TBool /\ forall n, In n args -> exists h, accepted in_ty TBool n h.
  Proof.
    unfold decide_op, variadic_agnostic. destruct args as [|n args].
    - split; [intros [s H]; discriminate|intros [H _]; congruence].
    - rewrite <- all_return_iff. split.
      + intros [s H]. destruct (all_return in_ty TBool (n :: args)) as [hs| |]; try discriminate.
        cbn [rbind] in H. injection H as <- <-. split; [discriminate|eauto].
      + intros (_ & -> & hs & ->). cbn [rbind]. eauto.
  Qed.

  Lemma decide_eq in_ty args s t v e w : decide_op in_ty args = Ok (s, t) ->
    invoke s v e w = final VBool e (match map (arg_of e) args with
      | [] => (w, Panic)
      | d :: ds => match d v w with
                   | (w1, Ok x) => match as_bool x with
                                   | Ok b => loopf as_bool step_of v ds (total [b]) w1
                                   | Err n => (w1, Err n) | Panic => (w1, Panic) end
                   | (w1, Err n) => (w1, Err n)
                   | (w1, Panic) => (w1, Panic)
                   end
      end).
  Proof.
    unfold decide_op, variadic_agnostic. destruct args as [|n args]; [discriminate|].
    destruct (all_return in_ty TBool (n :: args)) as [hs| |] eqn:E; try discriminate. cbn [rbind].
    intro H. injection H as <- <-. destruct (all_return_of _ _ _ e E) as [Em El]. rewrite <- Em. clear E Em.
    destruct hs as [|h hs]; [discriminate|]. unfold agnostic_step. rewrite invoke_op. cbn [run_act map nth_error length pred]. unfold bind.
    change (in_env e h v w) with (resolve h v e w).
    destruct (resolve h v e w) as [w1 [x|k|]]; auto. unfold try. destruct (as_bool x) as [b|k|]; auto.
    assert (X := loop_eq as_bool VBool step_of v e hs [h] b w1). cbn [length app map] in X.
    etransitivity; [exact X|]. replace b with (total [b]) at 1; auto. unfold total. destruct dec, b; auto.
  Qed.

  Lemma split_map {A B} (f : A -> B) l ds1 ds2 : map f l = ds1 ++ ds2 ->
    exists l1 l2, l = l1 ++ l2 /\ map f l1 = ds1 /\ map f l2 = ds2.
  Proof. intro H. apply map_eq_app in H. destruct H as (l1 & l2 & -> & H1 & H2). eauto. Qed.

  Lemma decide_value in_ty args s t v e w w' u e' : decide_op in_ty args = Ok (s, t) ->
    (invoke s v e w = (w', Ok (u, e')) <->
     e' = e /\ exists args1 args2 bs, args = args1 ++ args2 /\ each v (map (arg_of e) args1) w (map VBool bs) w' /\
       u = VBool (total bs) /\ ends_with undecided bs args2).
  Proof.
    intro H. rewrite (@decide_eq _ _ _ _ v e w H). assert (Na : args <> []) by (intros ->; discriminate). clear H.
    destruct args as [|n args]; [congruence|]. cbn [map].
    assert (One : forall b, total [b] = b) by (intros b; unfold total; destruct dec, b; auto).
    split.
    - destruct (arg_of e n v w) as [w1 [x|k|]] eqn:Ed; try discriminate.
      destruct x; try discriminate. cbn [as_bool].
      destruct (loopf as_bool step_of v (map (arg_of e) args) (total [b]) w1) as [w2 [c|k|]] eqn:El; try discriminate.
      cbn [final]. intro H. injection H as <- <- <-. split; auto.
      apply loop_value in El; [|discriminate|right; reflexivity].
      destruct El as (ds1 & ds2 & cs & Em & He & -> & St & Op).
      apply split_map in Em. destruct Em as (args1 & args2 & -> & <- & <-).
      exists (n :: args1), args2, (b :: cs). repeat split; auto.
      + cbn. econstructor; eauto.
      + discriminate.
      + destruct St as [St|[Nc St]]; [left; destruct args2; [auto|discriminate]|]. right. intro U. cbn [app] in St.
        unfold undecided in U. rewrite St in U. destruct cs as [|? cs]; [congruence|]. specialize (U ltac:(cbn; lia)). destruct dec; discriminate.
      + intros [|[|k]] Lk Lk2; cbn in Lk2; try lia. cbn [firstn] in *.
        apply (Op (S k)); cbn in Lk; lia.
    - intros (-> & args1 & args2 & bs & E & He & -> & Nb & St & Op).
      destruct args1 as [|n1 args1].
      { inversion He; subst. destruct bs; [congruence|discriminate]. }
      cbn in E. injection E as <- ->. cbn [map] in He. destruct bs as [|b bs]; [inversion He|]. cbn [map] in He.
      inversion He as [|? ? ? ? w1 ? ? Hd He']; subst.
      rewrite Hd. cbn [as_bool].
      assert (L : loopf as_bool step_of v (map (arg_of e) (args1 ++ args2)) (total [b]) w1 = (w', Ok (total ([b] ++ bs)))).
      { apply loop_value; [discriminate|right; reflexivity|]. exists (map (arg_of e) args1), (map (arg_of e) args2), bs.
        rewrite map_app. repeat split; auto.
        - destruct St as [->|St]; [left; auto|]. right. destruct bs as [|b2 bs].
          + elim St. intro. cbn in *. lia.
          + split; [discriminate|]. unfold undecided in St. destruct (total ([b] ++ b2 :: bs)) eqn:Et; destruct dec; auto; elim St; intros; auto.
        - intros k Hk Lk. specialize (Op (S k)). cbn [firstn length] in Op. apply Op; [lia|]. cbn. rewrite firstn_length. lia. }
      rewrite L. reflexivity.
  Qed.

  Lemma decide_stops in_ty args s t v e w w' f : decide_op in_ty args = Ok (s, t) ->
    (invoke s v e w = (w', halt f) <->
     exists args1 n args2 bs w1, args = args1 ++ n :: args2 /\ each v (map (arg_of e) args1) w (map VBool bs) w1 /\
       undecided bs /\
       (arg_of e n v w1 = (w', halt f) \/ exists x, arg_of e n v w1 = (w', Ok x) /\ ty_of x <> TBool /\ f = Some 1)).
  Proof.
    intro H. rewrite (@decide_eq _ _ _ _ v e w H). assert (Na : args <> []) by (intros ->; discriminate). clear H.
    destruct args as [|n args]; [congruence|]. cbn [map].
    split.
    - destruct (arg_of e n v w) as [w1 [x|k|]] eqn:Ed.
      + destruct (as_bool x) as [b|k|] eqn:Ex.
        * destruct x; try discriminate. cbn in Ex. injection Ex as ->.
          intro H. assert (El : loopf as_bool step_of v (map (arg_of e) args) (total [b]) w1 = (w', halt f)).
          { destruct (loopf as_bool step_of v (map (arg_of e) args) (total [b]) w1) as [w2 [c|k|]];
            destruct f; try discriminate; injection H; intros; subst; reflexivity. }
          apply loop_stops in El; [|discriminate|right; reflexivity].
          destruct El as (ds1 & d & ds2 & cs & w2 & Em & He & Op & St).
          apply split_map in Em. destruct Em as (args1 & args2 & -> & <- & Em).
          destruct args2 as [|n2 args2]; [discriminate|]. cbn in Em. injection Em as <- <-.
          exists (n :: args1), n2, args2, (b :: cs), w2. repeat split; auto.
          -- cbn. econstructor; eauto.
          -- intros L. apply Op. intros ->. cbn in L. lia.
        * intro H. exists [], n, args, [], w. repeat split; auto; try apply each_none; try (intro; cbn in *; lia).
          right. exists x. destruct x; cbn in Ex; try discriminate; injection Ex as <-; destruct f as [m|]; try discriminate;
            cbn in H; injection H as <- <-; repeat split; auto; discriminate.
        * destruct x; discriminate.
      + intro H. exists [], n, args, [], w. repeat split; auto; try apply each_none; try (intro; cbn in *; lia). left. rewrite Ed.
        cbn in H. destruct f; try discriminate. injection H as <- <-. reflexivity.
      + intro H. exists [], n, args, [], w. repeat split; auto; try apply each_none; try (intro; cbn in *; lia). left. rewrite Ed.
        cbn in H. destruct f; try discriminate. injection H as <-. reflexivity.
    - intros (args1 & n1 & args2 & bs & w1 & E & He & Op & St). destruct args1 as [|m args1].
      + cbn in E. injection E as <- <-. inversion He; subst. destruct St as [->|(x & -> & Tx & ->)].
        * destruct f; reflexivity.
        * destruct x; cbn in *; try reflexivity. congruence.
      + cbn in E. injection E as <- ->. cbn [map] in He. destruct bs as [|b bs]; [inversion He|]. cbn [map] in He.
        inversion He as [|? ? ? ? w2 ? ? Hd He']; subst.
        rewrite Hd. cbn [as_bool].
        assert (L : loopf as_bool step_of v (map (arg_of e) (args1 ++ n1 :: args2)) (total [b]) w2 = (w', halt f)).
        { apply loop_stops; [discriminate|right; reflexivity|].
          exists (map (arg_of e) args1), (arg_of e n1), (map (arg_of e) args2), bs, w1.
          rewrite map_app. cbn [map]. repeat split; auto.
          intros Nb. apply Op. destruct bs; [congruence|cbn; lia]. }
        rewrite L. destruct f; reflexivity.
  Qed.
End Decide.

(** ** If *)
Lemma chain_even conds (last : node) : Nat.even (length (chain conds last)) = false.
Proof.
  unfold chain. rewrite app_length. induction conds as [|c conds IH]; cbn; auto.
Qed.
Lemma odd_chain (args : list node) : Nat.even (length args) = false -> exists conds last, args = chain conds last.
Proof.
  assert (G : forall n (args : list node), length args <= n -> Nat.even (length args) = false -> exists conds last, args = chain conds last).
  { induction n as [|n IH]; intros [|a [|b l]] L E; cbn in L, E; try discriminate; try lia.
    - exists [], a. reflexivity.
    - destruct (IH l) as (conds & last & ->); [lia|auto|]. exists ((a, b) :: conds), last. reflexivity. }
  apply (G (length args)); auto.
Qed.
Lemma chain_cons c conds (last : node) : chain (c :: conds) last = fst c :: snd c :: chain conds last.
Proof. reflexivity. Qed.
Lemma chain_inj conds : forall (last : node) conds' last', chain conds last = chain conds' last' -> conds = conds' /\ last = last'.
Proof.
  induction conds as [|[p b] conds IH]; intros last [|[p' b'] conds'] last' H; rewrite ?chain_cons in H.
  - injection H as ->. auto.
  - unfold chain in H at 1. cbn in H. inversion H.
  - unfold chain in H at 2. cbn in H. inversion H.
  - cbn [fst snd] in H. inversion H as [[H1 H2 H3]]. apply IH in H3. destruct H3 as [-> ->]. auto.
Qed.
Lemma if_args_two in_ty (p n : node) a args : if_args in_ty (p :: n :: a :: args) =
  (let? p := supplied in_ty p in let? p := returns TBool p in let? hp := concrete p in
   let? n := supplied in_ty n in let? h := concrete n in
   let? r := if_args in_ty (a :: args) in
   let '(hs, ts, t) := r in Ok (hp :: h :: hs, n_out n :: ts, t)).
Proof. reflexivity. Qed.
Lemma chain_head conds (last : node) : exists a l, chain conds last = a :: l.
Proof. destruct conds as [|[p b] c]; [exists last, []; reflexivity|exists p, (b :: chain c last); reflexivity]. Qed.

Lemma if_args_ok in_ty conds (last : node) : forall hs ts t, if_args in_ty (chain conds last) = Ok (hs, ts, t) <->
  exists hc hl, hs = flat_map (fun c : hold W * hold W => [fst c; snd c]) hc ++ [hl] /\
    Forall2 (fun c h => accepted in_ty TBool (fst c) (fst h) /\ accepted_any in_ty (snd c) (snd h)) conds hc /\
    accepted_any in_ty last hl /\ ts = map (fun c => n_out (snd c)) conds /\ t = n_out last.
Proof.
  assert (Refl : forall n : node, ty_eqb (n_out n) (n_out n) = true) by (intros; apply ty_eqb_refl).
  induction conds as [|[p b] conds IH]; intros hs ts t.
  - cbn [chain flat_map app if_args]. unfold supplied. split.
    + destruct (ty_eqb (n_in last) in_ty) eqn:E1; try discriminate. cbn [rbind].
      destruct (concrete last) as [h| |] eqn:E2; try discriminate. cbn [rbind]. intro H. injection H as <- <- <-.
      exists [], h. apply concrete_ok in E2. repeat split; auto.
    + intros (hc & hl & -> & F & (A1 & _ & A2) & -> & ->). inversion F; subst. rewrite A1. cbn [rbind].
      apply concrete_ok in A2. rewrite A2. reflexivity.
  - rewrite chain_cons. destruct (chain_head conds last) as (a & l & Ec). rewrite Ec in *. cbn [fst snd].
    rewrite if_args_two. unfold supplied, returns. split.
    + destruct (ty_eqb (n_in p) in_ty) eqn:E1; try discriminate. cbn [rbind].
      destruct (ty_eqb (n_out p) TBool) eqn:E2; try discriminate. cbn [rbind].
      destruct (concrete p) as [hp| |] eqn:E3; try discriminate. cbn [rbind].
      destruct (ty_eqb (n_in b) in_ty) eqn:E4; try discriminate. cbn [rbind].
      destruct (concrete b) as [hb| |] eqn:E5; try discriminate. cbn [rbind].
      destruct (if_args in_ty (a :: l)) as [[[hs' ts'] t']| |] eqn:E6; try discriminate. cbn [rbind].
      intro H. injection H as <- <- <-. destruct (proj1 (IH _ _ _) eq_refl) as (hc & hl & -> & F & A & -> & ->).
      exists ((hp, hb) :: hc), hl. apply concrete_ok in E3, E5.
      split; [reflexivity|]. split; [|auto]. constructor; [|exact F]. split; split; auto; split; auto.
    + intros (hc & hl & -> & F & A & -> & ->). inversion F as [|? [hp hb] ? hc' [A1 A2] F']; subst. cbn [fst snd] in *.
      destruct A1 as (A11 & A12 & A13). destruct A2 as (A21 & _ & A23). rewrite A11. cbn [rbind]. rewrite A12. cbn [rbind].
      apply concrete_ok in A13, A23. rewrite A13. cbn [rbind]. rewrite A21. cbn [rbind]. rewrite A23. cbn [rbind].
      assert (E6 : if_args in_ty (a :: l) = Ok (flat_map (fun c : hold W * hold W => [fst c; snd c]) hc' ++ [hl],
                     map (fun c => n_out (snd c)) conds, n_out last)) by (apply IH; eauto 8).
      rewrite E6. reflexivity.
Qed.

Lemma if_compiles in_ty (args : list node) t : (exists s, if_intrinsic in_ty args = Ok (s, t)) <->
  exists conds last, args = chain conds last /\
    (forall p b, In (p, b) conds -> (exists h, accepted in_ty TBool p h) /\ (exists h, accepted_any in_ty b h) /\
                                    ty_eqb t (n_out b) = true) /\
    (exists h, accepted_any in_ty last h) /\ t = n_out last.
Proof.
  unfold if_intrinsic. split.
  - intros [s H]. destruct (Nat.even (length args)) eqn:Ev; try discriminate.
    destruct (odd_chain _ Ev) as (conds & last & ->). exists conds, last. split; auto.
    destruct (if_args in_ty (chain conds last)) as [[[hs ts] t']| |] eqn:E; try discriminate. cbn [rbind] in H.
    destruct (forallb (fun x => ty_eqb t' x) ts) eqn:Ef; try discriminate. injection H as <- <-.
    apply if_args_ok in E. destruct E as (hc & hl & -> & F & A & -> & ->). split; [|eauto].
    intros p b Hin. assert (X := proj1 (forallb_forall _ _) Ef). split; [|split].
    + clear - F Hin. induction F as [|c h conds hc [A1 _] F IH]; [destruct Hin|]. destruct Hin as [->|Hin]; eauto.
    + clear - F Hin. induction F as [|c h conds hc [_ A1] F IH]; [destruct Hin|]. destruct Hin as [->|Hin]; eauto.
    + apply X. apply in_map_iff. exists (p, b). auto.
  - intros (conds & last & -> & Hc & [hl Hl] & ->). rewrite chain_even.
    assert (F : exists hc : list (hold W * hold W), Forall2 (fun c h => accepted in_ty TBool (fst c) (fst h) /\ accepted_any in_ty (snd c) (snd h)) conds hc).
    { clear Hl. induction conds as [|[p b] conds IH]; [exists []; constructor|].
      destruct IH as [hc F]; [intros; apply Hc; right; auto|].
      destruct (Hc p b) as ([hp Hp] & [hb Hb] & _); [left; auto|]. exists ((hp, hb) :: hc). constructor; auto. }
    destruct F as [hc F].
    assert (E : if_args in_ty (chain conds last) = Ok (flat_map (fun c : hold W * hold W => [fst c; snd c]) hc ++ [hl],
              map (fun c => n_out (snd c)) conds, n_out last)) by (apply if_args_ok; eauto 8).
    rewrite E. cbn [rbind].
    assert (Ef : forallb (fun x => ty_eqb (n_out last) x) (map (fun c => n_out (snd c)) conds) = true).
    { apply forallb_forall. intros x Hx. apply in_map_iff in Hx. destruct Hx as ([p b] & <- & Hin). apply (Hc p b Hin). }
    rewrite Ef. eauto.
Qed.

Fixpoint iff_run (v : value) (l : list (compu * compu)) (el : compu) (w : W) : W * res value :=
  match l with
  | [] => el v w
  | (p, b) :: l => match p v w with
                   | (w1, Ok x) => match as_bool x with
                                   | Ok true => b v w1
                                   | Ok false => iff_run v l el w1
                                   | Err n => (w1, Err n) | Panic => (w1, Panic) end
                   | (w1, Err n) => (w1, Err n)
                   | (w1, Panic) => (w1, Panic)
                   end
  end.
Definition with_env (e : env) (r : W * res value) : W * res (value * env) :=
  match r with (w, Ok z) => (w, Ok (z, e)) | (w, Err n) => (w, Err n) | (w, Panic) => (w, Panic) end.

Lemma if_loop_eq v e (hc : list (hold W * hold W)) hl : forall pre w,
  run_act (map (@resolve W) (pre ++ flat_map (fun c => [fst c; snd c]) hc ++ [hl])) [] (if_loop W (length hc) (length pre) v) e w
  = with_env e (iff_run v (map (fun c => (in_env e (fst c), in_env e (snd c))) hc) (in_env e hl) w).
Proof.
  induction hc as [|[p b] hc IH]; intros pre w; cbn [length if_loop flat_map app map iff_run run_act fst snd].
  - rewrite nth_map_mid. unfold bind. change (in_env e hl v w) with (resolve hl v e w).
    destruct (resolve hl v e w) as [w1 [x|n|]]; auto.
  - rewrite nth_map_mid. unfold bind. change (in_env e p v w) with (resolve p v e w).
    destruct (resolve p v e w) as [w1 [x|n|]]; auto. unfold try.
    destruct (as_bool x) as [[|]|n|]; auto.
    + cbn [run_act].
      assert (Nx : nth_error (map (@resolve W) (pre ++ p :: b :: flat_map (fun c => [fst c; snd c]) hc ++ [hl])) (S (length pre))
                 = Some (resolve b)).
      { assert (Y := nth_map_mid (@resolve W) (pre ++ [p]) b (flat_map (fun c => [fst c; snd c]) hc ++ [hl])).
        rewrite <- app_assoc, app_length, Nat.add_1_r in Y. exact Y. }
      rewrite Nx. unfold bind. change (in_env e b v w1) with (resolve b v e w1).
      destruct (resolve b v e w1) as [w2 [y|n|]]; auto.
    + specialize (IH (pre ++ [p; b]) w1). rewrite <- app_assoc, app_length, Nat.add_comm in IH. exact IH.
Qed.

Lemma if_eq in_ty conds last s t v e w : if_intrinsic in_ty (chain conds last) = Ok (s, t) ->
  invoke s v e w = with_env e (iff_run v (chain_of e conds) (arg_of e last) w).
Proof.
  unfold if_intrinsic. rewrite chain_even.
  destruct (if_args in_ty (chain conds last)) as [[[hs ts] t']| |] eqn:E; try discriminate. cbn [rbind].
  destruct (forallb _ ts) eqn:Ef; try discriminate. intro H. injection H as <- <-.
  apply if_args_ok in E. destruct E as (hc & hl & -> & F & (_ & _ & tl & A & _) & -> & ->).
  unfold if_step. rewrite invoke_op, map_length, (Forall2_len F).
  assert (X := if_loop_eq v e hc hl [] w). cbn [app length] in X. rewrite X. f_equal. f_equal.
  - clear - F. unfold chain_of. induction F as [|[p b] [hp hb] conds hc [(_ & _ & t1 & A1 & _) (_ & _ & t2 & A2 & _)] _ IH]; cbn; auto.
    cbn in A1, A2. unfold arg_of at 1 2. rewrite A1, A2, IH. reflexivity.
  - unfold arg_of. rewrite A. reflexivity.
Qed.

Lemma run_value v l : forall el w w' u, iff_run v l el w = (w', Ok u) <-> exists b w1, picks v l el w b w1 /\ b v w1 = (w', Ok u).
Proof.
  induction l as [|[p b] l IH]; intros el w w' u; cbn [iff_run].
  - split; [intro H; exists el, w; split; auto; constructor|]. intros (b & w1 & H & E). inversion H; subst. auto.
  - split.
    + destruct (p v w) as [w1 [x|n|]] eqn:Ep; try discriminate.
      destruct x; try discriminate. cbn [as_bool]. destruct b0.
      * intro H. exists b, w1. split; auto. constructor. auto.
      * intro H. apply IH in H. destruct H as (b' & w2 & P & E). exists b', w2. split; auto. eapply picks_later; eauto.
    + intros (b' & w1 & P & E). inversion P as [|? ? ? ? ? ? Hp|? ? ? ? ? w2 ? ? Hp Hl]; subst; rewrite Hp; cbn [as_bool]; auto.
      apply IH. eauto.
Qed.
Lemma run_stops v l : forall el w w' f, iff_run v l el w = (w', halt f) <->
  blocked v l w f w' \/ exists b w1, picks v l el w b w1 /\ b v w1 = (w', halt f).
Proof.
  induction l as [|[p b] l IH]; intros el w w' f; cbn [iff_run].
  - split.
    + intro H. right. exists el, w. split; auto; constructor.
    + intros [H|(b & w1 & H & E)]; inversion H; subst. auto.
  - split.
    + destruct (p v w) as [w1 [x|n|]] eqn:Ep.
      * destruct (as_bool x) as [[|]|n|] eqn:Ex.
        -- destruct x; try discriminate. cbn in Ex. injection Ex as ->. intro H. right. exists b, w1. split; auto. constructor; auto.
        -- destruct x; try discriminate. cbn in Ex. injection Ex as ->. intro H. apply IH in H.
           destruct H as [H|(b' & w2 & P & E)].
           ++ left. eapply blocked_later; eauto.
           ++ right. exists b', w2. split; auto. eapply picks_later; eauto.
        -- intro H. left. destruct x; cbn in Ex; try discriminate; injection Ex as <-; destruct f as [m|]; try discriminate;
             cbn in H; injection H as <- <-; eapply blocked_type; eauto; discriminate.
        -- destruct x; discriminate.
      * intro H. left. constructor. rewrite Ep. destruct f; try discriminate. injection H as <- <-. reflexivity.
      * intro H. left. constructor. rewrite Ep. destruct f; try discriminate. injection H as <-. reflexivity.
    + intros [H|(b' & w1 & P & E)].
      * inversion H as [? ? ? ? ? ? Hp|? ? ? ? x ? Hp Tx|? ? ? ? w1 ? ? Hp Hl]; subst; rewrite Hp.
        -- destruct f; reflexivity.
        -- destruct x; cbn in *; try reflexivity. congruence.
        -- cbn [as_bool]. apply IH. auto.
      * inversion P as [|? ? ? ? ? ? Hp|? ? ? ? ? w2 ? ? Hp Hl]; subst; rewrite Hp; cbn [as_bool]; auto.
        apply IH. eauto.
Qed.

Lemma if_value in_ty conds (last : node) s t v e w w' u e' : if_intrinsic in_ty (chain conds last) = Ok (s, t) ->
  (invoke s v e w = (w', Ok (u, e')) <->
   e' = e /\ exists b w1, picks v (chain_of e conds) (arg_of e last) w b w1 /\ b v w1 = (w', Ok u)).
Proof.
  intro H. rewrite (@if_eq _ _ _ _ _ v e w H). rewrite <- run_value.
  destruct (iff_run v (chain_of e conds) (arg_of e last) w) as [w1 [x|n|]]; cbn [with_env]; split.
  - intro X. injection X as <- <- <-. auto.
  - intros [-> X]. injection X as <- <-. auto.
  - discriminate.
  - intros [_ X]. discriminate.
  - discriminate.
  - intros [_ X]. discriminate.
Qed.
Lemma if_stops in_ty conds (last : node) s t v e w w' f : if_intrinsic in_ty (chain conds last) = Ok (s, t) ->
  (invoke s v e w = (w', halt f) <->
   blocked v (chain_of e conds) w f w' \/
   exists b w1, picks v (chain_of e conds) (arg_of e last) w b w1 /\ b v w1 = (w', halt f)).
Proof.
  intro H. rewrite (@if_eq _ _ _ _ _ v e w H). rewrite <- run_stops.
  destruct (iff_run v (chain_of e conds) (arg_of e last) w) as [w1 [x|n|]]; cbn [with_env]; destruct f; cbn; split; intro X; try discriminate;
    injection X; intros; subst; auto.
Qed.

Lemma if_rejects in_ty t (args : list node) s : if_intrinsic in_ty args = Ok (s, t) ->
  Nat.Odd (length args) /\
  forall conds last p b, args = chain conds last -> In (p, b) conds -> ty_eqb (n_out last) (n_out b) = true.
Proof.
  intro H. assert (X : exists s, if_intrinsic in_ty args = Ok (s, t)) by eauto. apply if_compiles in X.
  destruct X as (conds & last & -> & Hc & _ & ->). split.
  - apply Nat.odd_spec. unfold Nat.odd. rewrite chain_even. reflexivity.
  - intros conds' last' p b E Hin. apply chain_inj in E. destruct E as [<- <-]. apply (Hc p b Hin).
Qed.

End Logic.
