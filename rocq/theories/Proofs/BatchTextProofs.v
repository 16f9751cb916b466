(** Proofs for C83. *)
From Coq Require Import List NArith Bool Arith Lia Sorted.
From Verif Require Import Model.Base Model.Parse Model.File Model.Batch Model.CommandLine Model.BatchText
  Spec.ParseSpec Spec.FileSpec Spec.BatchSpec Spec.BatchTextSpec Proofs.FileMainProofs Proofs.BatchProofs.
Import ListNotations.

Lemma types_listed : forall xs, map (fun x => item_of IType (snd x)) (of_types xs) = of_type IType xs.
Proof. induction xs as [|[[n|n|] i] xs IH]; unfold of_type, item_of, listed in *; cbn in *; rewrite ?IH; first [reflexivity|exact IH|f_equal; exact IH]. Qed.
Lemma impls_listed : forall xs, map (fun x => item_of IImpl (snd x)) (of_impls xs) = of_type IImpl xs.
Proof. induction xs as [|[[n|n|] i] xs IH]; unfold of_type, item_of, listed in *; cbn in *; rewrite ?IH; first [reflexivity|exact IH|f_equal; exact IH]. Qed.
Lemma exprs_listed : forall xs, map (item_of IExpr) (of_exprs xs) = of_type IExpr xs.
Proof. induction xs as [|[[n|n|] i] xs IH]; unfold of_type, item_of, listed in *; cbn in *; rewrite ?IH; first [reflexivity|exact IH|f_equal; exact IH]. Qed.

Lemma outlines_contains : forall k text f, outlines k text f -> exists xs, contains k text xs /\
  fl_types f = of_types xs /\ fl_impls f = of_impls xs /\ fl_exprs f = of_exprs xs.
Proof.
  intros k text f (w & pre & ds0 & rest & e & dirs & body & its & own & xs & E1 & _ & _ & _ & LE & E2 & _ & _ & SP & F & L & _ & T1 & T2 & T3).
  exists xs. split; [|auto]. exists (firstn (length text - length body) text), body, its, own. repeat split; auto.
  assert (X : exists h, text = h ++ body).
  { destruct LE as [[-> ->]|(p & -> & _)].
    - exists (w ++ dirs). cbn in E1, E2. rewrite E1, E2. now rewrite app_assoc.
    - exists (w ++ p ++ dirs). rewrite E1, <- !app_assoc. f_equal. f_equal. rewrite E2. reflexivity. }
  destruct X as [h ->]. rewrite app_length. replace (length h + length body - length body) with (length h) by lia.
  rewrite firstn_app, Nat.sub_diag, firstn_all, app_nil_r. reflexivity.
Qed.

Lemma parsed : forall k, sane k -> forall text b, parse_str k text = Ok b ->
  exists f xs, parse_file k text = Ok f /\ contains k text xs /\
    bt_items b = of_type IType xs ++ of_type IImpl xs ++ of_type IExpr xs /\
    (bt_par b = false <-> In NoParallelise (fl_dirs f)) /\ (bt_ff b = true <-> In FailFast (fl_dirs f)).
Proof.
  intros k SK text b H. unfold parse_str in H. destruct (parse_file k text) as [f| |] eqn:E; try discriminate. cbn in H. injection H as <-.
  destruct (outlines_contains _ _ _ (file_outlines _ SK _ _ E)) as (xs & C & T1 & T2 & T3). exists f, xs. split; [reflexivity|]. split; [exact C|]. cbn.
  rewrite T1, T2, T3, types_listed, impls_listed, exprs_listed. split; [reflexivity|]. split.
  - rewrite negb_false_iff, existsb_exists. split; [|intros I; exists NoParallelise; auto]. intros (x & I & J). destruct x; try discriminate. exact I.
  - rewrite existsb_exists. split; [|intros I; exists FailFast; auto]. intros (x & I & J). destruct x; try discriminate. exact I.
Qed.

(** ** Definitions come first in the list *)
Definition defs_first (items : list Batch.item) (n : nat) : Prop :=
  n <= length items /\ forall i, (is_def items i <-> i < n) /\ (is_xpr items i <-> n <= i < length items).

Lemma of_type_type : forall t xs x, In x (of_type t xs) -> Batch.it_type (snd x) = t.
Proof.
  intros t xs x I. unfold of_type in I. apply in_map_iff in I. destruct I as (y & <- & I). apply filter_In in I. destruct I as [_ I]. cbn.
  destruct (type_of (fst y)), t; try discriminate; reflexivity.
Qed.
Lemma two_parts : forall a b, (forall x, In x a -> Batch.it_type x <> IExpr) -> (forall x, In x b -> Batch.it_type x = IExpr) ->
  defs_first (a ++ b) (length a).
Proof.
  intros a b A B. split; [rewrite app_length; lia|]. intros i. unfold is_def, is_xpr. destruct (Nat.lt_ge_cases i (length a)) as [L|L].
  - rewrite nth_error_app1 by exact L. destruct (nth_error a i) as [x|] eqn:E; [|apply nth_error_None in E; lia].
    pose proof (A x (nth_error_In _ _ E)) as X. split; split; try lia.
    + intros _. eauto.
    + intros (y & Y & Z). injection Y as <-. contradiction.
  - rewrite nth_error_app2 by exact L. rewrite app_length. destruct (nth_error b (i - length a)) as [x|] eqn:E.
    + pose proof (B x (nth_error_In _ _ E)) as X. assert (i - length a < length b) by (apply nth_error_Some; congruence).
      split; split; try lia.
      * intros (y & Y & Z). injection Y as <-. contradiction.
      * intros _. eauto.
    + apply nth_error_None in E. split; split; try lia; intros (y & Y & _); discriminate.
Qed.
Lemma parsed_first : forall b xs, bt_items b = of_type IType xs ++ of_type IImpl xs ++ of_type IExpr xs ->
  defs_first (map snd (bt_items b)) (length (of_type IType xs ++ of_type IImpl xs)).
Proof.
  intros b xs ->. rewrite app_assoc, map_app. rewrite <- (map_length snd (of_type IType xs ++ of_type IImpl xs)). apply two_parts.
  - intros x I. apply in_map_iff in I. destruct I as (y & <- & I). apply in_app_or in I. destruct I as [I|I]; rewrite (of_type_type _ _ _ I); discriminate.
  - intros x I. apply in_map_iff in I. destruct I as (y & <- & I). exact (of_type_type _ _ _ I).
Qed.
Lemma earlier_lt : forall items n, defs_first items n -> forall i j, earlier items i j <-> i < j /\ j < length items.
Proof.
  intros items n [L H] i j. unfold earlier. rewrite !(proj1 (H _)), !(proj2 (H _)). lia.
Qed.

Lemma closed_seq : forall ran a, StronglySorted lt ran -> (forall i, In i ran -> a <= i) ->
  (forall i, In i ran -> forall j, a <= j < i -> In j ran) -> ran = seq a (length ran).
Proof.
  induction ran as [|x ran IH]; intros a S1 B C; [reflexivity|]. inversion S1 as [|? ? S2 F]; subst. rewrite Forall_forall in F.
  assert (x = a).
  { pose proof (B x (or_introl eq_refl)). destruct (Nat.eq_dec x a); [auto|]. destruct (C x (or_introl eq_refl) a ltac:(lia)) as [|I]; [lia|].
    apply F in I. lia. }
  subst x. cbn. f_equal. apply IH; [exact S2| |].
  - intros i I. apply F in I. lia.
  - intros i I j J. destruct (C i (or_intror I) j ltac:(lia)) as [|K]; [lia|exact K].
Qed.
Lemma sorted_impl : forall A (R R' : A -> A -> Prop) l, (forall x y, R x y -> R' x y) -> StronglySorted R l -> StronglySorted R' l.
Proof. intros A R R' l H S1. induction S1; constructor; auto. eapply Forall_impl; [|eauto]. auto. Qed.

Section Run.
  Variable D : Type.
  Variable def_run : Batch.item -> D -> bool * D.
  Variable expr_run : Batch.item -> D -> bool.

  Lemma sequential : forall items n (d : D) ff l res ran msgs, defs_first items n ->
    process def_run expr_run ff false items d l = Some (res, ran, msgs) -> ~ In ACancel l ->
    exists m, ran = seq 0 m /\ m <= length items /\
      (ff = false -> m = length items) /\
      (ff = true -> (forall i, S i < m -> succeeds D def_run expr_run items d i = Some true) /\
                    (m < length items -> exists i, m = S i /\ succeeds D def_run expr_run items d i = Some false)).
  Proof.
    intros items n d ff l res ran msgs DF P NC.
    pose proof (in_order _ _ _ _ _ _ _ _ _ _ P) as SO.
    pose proof (ran_bound _ _ _ _ _ _ _ _ _ _ _ P) as RB.
    assert (SL : StronglySorted lt ran) by (eapply sorted_impl; [|exact SO]; intros x y E; apply (earlier_lt _ _ DF) in E; tauto).
    assert (CL : forall i, In i ran -> forall j, 0 <= j < i -> In j ran).
    { intros i I j J. pose proof (RB _ I) as Li. destruct ff.
      - apply (proj2 (fail_fast_seq _ _ _ _ _ _ _ _ _ P NC j ltac:(lia))). intros h E. apply (earlier_lt _ _ DF) in E.
        apply (proj1 (fail_fast_seq _ _ _ _ _ _ _ _ _ P NC i Li) I). apply (earlier_lt _ _ DF). lia.
      - eapply all_run; [exact P|lia]. }
    pose proof (closed_seq ran 0 SL (fun i _ => Nat.le_0_l i) CL) as E.
    exists (length ran). split; [exact E|].
    assert (LE : length ran <= length items).
    { destruct (length ran) as [|m] eqn:L; [lia|]. assert (In m ran) by (rewrite E; apply in_seq; lia). pose proof (RB _ H). lia. }
    split; [exact LE|]. split.
    - intros ->. destruct (Nat.eq_dec (length ran) (length items)) as [|NE]; [auto|].
      assert (In (length ran) ran) by (eapply all_run; [exact P|lia]). rewrite E in H at 2. apply in_seq in H. lia.
    - intros ->. split.
      + intros i L. assert (I : In (S i) ran) by (rewrite E; apply in_seq; lia).
        apply (proj1 (fail_fast_seq _ _ _ _ _ _ _ _ _ P NC (S i) (RB _ I)) I). apply (earlier_lt _ _ DF). pose proof (RB _ I). lia.
      + intros L. destruct (length ran) as [|m] eqn:LR.
        * exfalso. assert (I : In 0 ran) by (apply (proj2 (fail_fast_seq _ _ _ _ _ _ _ _ _ P NC 0 L)); intros j X; apply (earlier_lt _ _ DF) in X; lia).
          rewrite E in I. destruct I.
        * exists m. split; [reflexivity|]. destruct (succ_cases D def_run expr_run items d m ltac:(lia)) as [X|X]; [|exact X]. exfalso.
          assert (I : In (S m) ran).
          { apply (proj2 (fail_fast_seq _ _ _ _ _ _ _ _ _ P NC (S m) L)). intros j Y. apply (earlier_lt _ _ DF) in Y.
            destruct (Nat.eq_dec j m) as [->|]; [exact X|].
            assert (Im : In m ran) by (rewrite E; apply in_seq; lia).
            apply (proj1 (fail_fast_seq _ _ _ _ _ _ _ _ _ P NC m ltac:(lia)) Im). apply (earlier_lt _ _ DF). lia. }
          rewrite E in I. apply in_seq in I. lia.
  Qed.

  (** ** In any run definitions come first, in order *)
  Definition ahead (items : list Batch.item) (s : bstate D) : Prop :=
    exists done xs skip, rev (b_ran s) = done ++ xs /\ defs_of items = done ++ b_todo_defs s ++ skip /\ (b_todo_defs s <> [] -> xs = []) /\
      (forall x, In x xs -> In x (exprs_of items)) /\ (forall x, In x (b_todo_exprs s) -> In x (exprs_of items)).
  Lemma ahead_step : forall ff par items s a s', ahead items s -> act def_run expr_run ff par items s a = Some s' -> ahead items s'.
  Proof.
    intros ff par items s a s' (done & xs & skip & R & E & N & X & T) H. destruct a; cbn [act] in H.
    - injection H as <-. exists done, xs, skip. cbn. auto.
    - destruct (b_todo_defs s) as [|i rest] eqn:ET; [discriminate|]. rewrite (N ltac:(discriminate)) in *. destruct (stop ff s).
      + injection H as <-. exists done, [], (i :: rest ++ skip). cbn. auto.
      + destruct (def_run (code_of items i) (b_defs s)) as [ok d]. injection H as <-. exists (done ++ [i]), [], skip. cbn. rewrite R, !app_nil_r, <- app_assoc. auto.
    - destruct (b_todo_defs s) eqn:ET; [|discriminate]. destruct (has i (b_todo_exprs s)) eqn:HI; [|discriminate]. apply has_in in HI.
      destruct (_ && _ && _); [|discriminate]. destruct (stop ff s); injection H as <-.
      + exists done, xs, skip. cbn. split; [exact R|]. split; [exact E|]. split; [auto|]. split; [exact X|]. intros x I. apply drop_in in I. apply T. tauto.
      + exists done, (xs ++ [i]), skip. cbn. rewrite R, <- app_assoc. split; [reflexivity|]. split; [exact E|]. split; [congruence|]. split.
        * intros x I. apply in_app_or in I. destruct I as [I|[<-|[]]]; auto.
        * intros x I. apply drop_in in I. apply T. tauto.
    - destruct (has i (b_running s)); [|discriminate]. injection H as <-. exists done, xs, skip. cbn. auto.
    - destruct (has i (b_reported s)); [|discriminate]. injection H as <-. exists done, xs, skip. cbn. auto.
  Qed.
  Lemma ahead_run : forall ff par items l s s', ahead items s -> acts def_run expr_run ff par items s l = Some s' -> ahead items s'.
  Proof.
    intros ff par items. induction l as [|a l IH]; cbn; intros s s' A H; [injection H as <-; exact A|].
    destruct (act _ _ _ _ _ s a) as [s1|] eqn:E; [|discriminate]. eapply IH; [|exact H]. eapply ahead_step; eauto.
  Qed.
  Lemma ahead_init : forall items d, ahead items (batch_init items d).
  Proof.
    intros items d. unfold batch_init. rewrite split_spec. exists [], [], []. cbn. rewrite app_nil_r. repeat split; auto. intros x [].
  Qed.

  Lemma sorted_filter_seq : forall items n, defs_first items n -> defs_of items = seq 0 n.
  Proof.
    intros items n [L H].
    assert (X : defs_of items = seq 0 (length (defs_of items))).
    { apply closed_seq; [apply defs_sorted|intros; lia|]. intros i I j J. apply is_def_in in I. apply is_def_in. apply (proj1 (H i)) in I. apply (proj1 (H j)). lia. }
    rewrite X. f_equal. destruct (Nat.lt_trichotomy (length (defs_of items)) n) as [Y|[Y|Y]]; [|exact Y|].
    - assert (I : In (length (defs_of items)) (defs_of items)) by (apply is_def_in, (proj1 (H _)); exact Y). rewrite X in I at 2. apply in_seq in I. lia.
    - assert (I : In n (defs_of items)) by (rewrite X; apply in_seq; lia). apply is_def_in, (proj1 (H _)) in I. lia.
  Qed.
  Lemma definitions_first : forall items n (d : D) ff par l res ran msgs, defs_first items n ->
    process def_run expr_run ff par items d l = Some (res, ran, msgs) ->
    exists m xs, ran = seq 0 m ++ xs /\ m <= n /\ forall i, In i xs -> n <= i < length items.
  Proof.
    intros items n d ff par l res ran msgs DF P. unfold process in P.
    destruct (acts def_run expr_run ff par items (batch_init items d) l) as [s|] eqn:EA; [|discriminate].
    destruct (finished s); [|discriminate]. injection P as _ <- _.
    destruct (ahead_run _ _ _ _ _ _ (ahead_init items d) EA) as (done & xs & skip & R & E & _ & X & _).
    rewrite (sorted_filter_seq _ _ DF) in E. exists (length done), xs. rewrite R.
    assert (Ln : length done <= n) by (rewrite <- (seq_length n 0), E, app_length; lia).
    assert (Ed : done = seq 0 (length done)).
    { replace n with (length done + (n - length done)) in E by lia. rewrite seq_app in E.
      apply (f_equal (firstn (length done))) in E. rewrite !firstn_app, seq_length, Nat.sub_diag, firstn_all in E. cbn in E. rewrite !app_nil_r in E.
rewrite firstn_all2 in E by (rewrite seq_length; lia). now symmetry. }
    split; [now rewrite <- Ed|]. split; [exact Ln|]. intros i I. apply X in I. apply is_xpr_in in I. now apply (proj2 (proj2 DF i)).
  Qed.

  Lemma run_text : forall k, sane k -> forall text b, parse_str k text = Ok b ->
    exists f xs, parse_file k text = Ok f /\ contains k text xs /\
      bt_items b = of_type IType xs ++ of_type IImpl xs ++ of_type IExpr xs /\
      forall (d : D) l res ran msgs, process def_run expr_run (bt_ff b) (bt_par b) (map snd (bt_items b)) d l = Some (res, ran, msgs) ->
      let n := length (of_type IType xs ++ of_type IImpl xs) in
      let ok i := succeeds D def_run expr_run (map snd (bt_items b)) d i = Some true in
      (exists m rest, ran = seq 0 m ++ rest /\ m <= n /\ forall i, In i rest -> n <= i < length (bt_items b)) /\
      (~ In FailFast (fl_dirs f) -> forall i, i < length (bt_items b) -> In i ran) /\
      (In NoParallelise (fl_dirs f) -> ~ In ACancel l -> exists m, ran = seq 0 m /\ m <= length (bt_items b) /\
         (In FailFast (fl_dirs f) -> (forall i, S i < m -> ok i) /\ (m < length (bt_items b) -> exists i, m = S i /\ ~ ok i))).
  Proof.
    intros k SK text b H. destruct (parsed _ SK _ _ H) as (f & xs & E & C & B & Hp & Hf). exists f, xs. split; [exact E|]. split; [exact C|]. split; [exact B|].
    intros d l res ran msgs P n ok. pose proof (parsed_first _ _ B) as DF. fold n in DF. rewrite <- (map_length snd (bt_items b)).
    split; [exact (definitions_first _ _ _ _ _ _ _ _ _ DF P)|]. split.
    - intros NF. assert (F : bt_ff b = false) by (destruct (bt_ff b); [elim NF; now apply Hf|reflexivity]). rewrite F in P. eapply all_run; exact P.
    - intros NP NC. apply Hp in NP. rewrite NP in P. destruct (sequential _ _ _ _ _ _ _ _ DF P NC) as (m & E1 & L & _ & G). exists m. split; [exact E1|]. split; [exact L|].
      intros FF. apply Hf in FF. destruct (G FF) as [G1 G2]. split; [exact G1|]. intros X. destruct (G2 X) as (i & Y & Z). exists i. split; [exact Y|]. unfold ok. congruence.
  Qed.
End Run.
