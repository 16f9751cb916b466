(** Building the graph of variables, seeding it and changing it. *)
From Coq Require Import String List Bool Arith Lia NArith ZArith Permutation Sorting.Sorted.
From Verif Require Import Model.Base Model.Value Model.Ast Model.Registry Model.AstGraph Model.Locals
  Spec.AstGraphSpec Spec.LocalsSpec.
From Verif Require Import Proofs.RegistryProofs Proofs.AstFlatProofs Proofs.AstExpandProofs Proofs.AstTypedProofs Proofs.LocalsGraphProofs Proofs.LocalsBuildProofs Proofs.LocalsProofs.
Import ListNotations.
Set Implicit Arguments.

Section F.
Variable g : graph.
Hypothesis G : good g.
Variable order : lmap -> lmap.
Hypothesis ORD : forall m, Permutation (order m) m.

Definition is_broken (done : list lchg) (a b : nat) : Prop := In (BreakEdge b a) done.
Definition edged (done : list lchg) (es : list ledge) : Prop :=
  tidy es /\ forall a b, In (a, b) (pairs es) <-> comes_before g a b \/ (seals g a b /\ ~ is_broken done a b).
Definition flagged (done : list lchg) (n : nat) : Prop := is_arg g n = true \/ n = 0 \/ In (Seal n) done \/ In (SealExpr n) done.

Fixpoint var_slots (bs : list binding) : list nat :=
  match bs with [] => [] | (_, _, EVar _ s) :: bs => s :: var_slots bs | _ :: bs => var_slots bs end.

Record state (bs : list binding) (done : list lchg) (lg : lgraph) : Prop := {
  s_settled : settled g bs lg;
  s_locals : lg_locals lg = map snd bs;
  s_edges : edged done (lg_edges lg);
  s_seals : forall n, n < sz g -> (nth_error (map va_sealed (lg_nodes lg)) n = Some true <-> flagged done n);
  s_slots : var_slots bs = seq 0 (lg_count lg)
}.

Lemma seals_lt : forall a b, seals g a b -> b < a.
Proof.
  intros a b [H|(_ & o & H1 & H2)]; [now apply (cb_lt G) in H|]. apply (cb_lt G) in H1. apply (cb_lt G) in H2. lia.
Qed.

Lemma out_edges_in : forall done lg a b f, edged done (lg_edges lg) -> (In b (out_edges lg a f) <-> In (a, b) (pairs (lg_edges lg)) /\ Nat.ltb a b = f).
Proof.
  intros done lg a b f ((N & F) & _). unfold out_edges. rewrite in_map_iff. split.
  - intros (e & <- & I). apply filter_In in I. destruct I as (I & Q). rewrite <- in_rev in I. apply andb_true_iff in Q. destruct Q as (Q1 & Q2).
    apply Nat.eqb_eq in Q1. apply eqb_prop in Q2. specialize (F _ I). split; [|congruence]. unfold pairs. apply in_map_iff. exists e. unfold ends. split; [congruence|auto].
  - intros (I & Q). unfold pairs in I. apply in_map_iff in I. destruct I as (e & E & I). unfold ends in E. injection E as E1 E2. exists e. split; [auto|]. apply filter_In.
    rewrite <- in_rev. split; [auto|]. rewrite E1, Nat.eqb_refl, (F _ I), E1, E2, Q. now rewrite eqb_reflx.
Qed.
Lemma out_flow : forall done lg a b, edged done (lg_edges lg) -> (In b (out_edges lg a true) <-> comes_before g a b).
Proof.
  intros done lg a b E. rewrite (out_edges_in _ _ _ _ E). destruct E as (_ & P). rewrite P, Nat.ltb_lt. split.
  - intros ([H|(H & _)] & L); [auto|]. apply seals_lt in H. lia.
  - intros H. split; [auto|]. now apply (cb_lt G) in H.
Qed.
Lemma out_seal : forall done lg a b, edged done (lg_edges lg) -> (In b (out_edges lg a false) <-> seals g a b /\ ~ is_broken done a b).
Proof.
  intros done lg a b E. rewrite (out_edges_in _ _ _ _ E). destruct E as (_ & P). rewrite P, Nat.ltb_ge. split.
  - intros ([H|H] & L); [|auto]. apply (cb_lt G) in H. lia.
  - intros H. split; [auto|]. destruct H as (H & _). apply seals_lt in H. lia.
Qed.
Lemma nodup_map_filter : forall A B (f : A -> B) p l, NoDup (map f l) -> NoDup (map f (filter p l)).
Proof.
  induction l as [|a l IH]; intros N; [constructor|]. inversion N; subst. cbn. destruct (p a); [|auto]. cbn. constructor; [|auto].
  intros I. apply H1. apply in_map_iff in I. destruct I as (x & E & I). apply filter_In in I. apply in_map_iff. exists x. tauto.
Qed.
Lemma out_nodup : forall lg a f, NoDup (pairs (lg_edges lg)) -> NoDup (out_edges lg a f).
Proof.
  intros lg a f N. unfold out_edges. apply NoDup_rev in N. unfold pairs in N. rewrite <- map_rev in N.
  apply (nodup_map_filter _ (fun e => Nat.eqb (le_src e) a && Bool.eqb (le_flow e) f)) in N.
  assert (S : forall e, In e (filter (fun e => Nat.eqb (le_src e) a && Bool.eqb (le_flow e) f) (rev (lg_edges lg))) -> le_src e = a).
  { intros e I. apply filter_In in I. destruct I as (_ & Q). apply andb_true_iff in Q. now apply Nat.eqb_eq. }
  revert N S. generalize (filter (fun e => Nat.eqb (le_src e) a && Bool.eqb (le_flow e) f) (rev (lg_edges lg))). intros l.
  induction l as [|e l IH]; intros N S; cbn in *; [constructor|]. inversion N; subst. constructor; [|auto]. intros I. apply H1. apply in_map_iff in I.
  destruct I as (e' & E & I). apply in_map_iff. exists e'. split; [|auto]. unfold ends. rewrite (S e), (S e'), E by auto. reflexivity.
Qed.
Lemma edged_flows : forall done lg, edged done (lg_edges lg) -> flows g lg.
Proof. intros done lg E a. split; [apply out_nodup, E|]. intros b. eapply out_flow; eauto. Qed.

(** ** Start *)
Lemma built_state : forall lg, built g lg -> state [] [] lg.
Proof.
  intros lg B. constructor.
  - assert (LK : forall n x, look lg n x = None).
    { intros n x. unfold look. destruct (nth_error (lg_nodes lg) n) as [v|] eqn:E; [|auto]. destruct (bl_nodes B _ E) as (M & _). now rewrite M. }
    split.
    + constructor.
      * apply (bl_size B).
      * apply edged_flows with (done := []). split; [apply (bl_tidy B)|]. intros a b. rewrite (bl_pairs B). unfold is_broken. cbn. tauto.
      * intros n v E. destruct (bl_nodes B _ E) as (M & _). rewrite M. constructor.
      * intros n x l _ H. rewrite LK in H. discriminate.
      * intros n x i _ H. discriminate.
    + intros n x _. split; [intros; now rewrite !LK|auto].
  - apply (bl_locals B).
  - split; [apply (bl_tidy B)|]. intros a b. rewrite (bl_pairs B). unfold is_broken. cbn. tauto.
  - intros n L. destruct (nth_error (lg_nodes lg) n) as [v|] eqn:E; [|apply nth_error_None in E; rewrite (bl_size B) in E; lia].
    rewrite (map_nth_error _ _ _ E). destruct (bl_nodes B _ E) as (_ & S). unfold flagged. cbn. rewrite <- (or_assoc _ _ (_ \/ _)), <- S. split; [intros H; injection H; auto|].
    intros [H|[[]|[]]]. now rewrite H.
  - rewrite (bl_count B). reflexivity.
Qed.

(** ** Seeding *)
Lemma seed_vars_nums : forall vs, seed_vars vs = combine vs (seq 0 (length vs)).
Proof.
  intros vs. unfold seed_vars.
  enough (H : forall vs l k, length l = k -> fold_left (fun l v => l ++ [(v, length l)]) vs l = l ++ combine vs (seq k (length vs))) by (apply (H vs [] 0); reflexivity).
  clear. induction vs as [|v vs IH]; intros l k L; cbn; [now rewrite app_nil_r|]. rewrite IH with (k := S k) by (rewrite app_length; cbn; lia).
  rewrite <- app_assoc. cbn. now rewrite L.
Qed.
Record pstate (bs : list binding) (done : list lchg) (n : nat) (lg : lgraph) : Prop := {
  p_pending : pending g bs lg n;
  p_locals : lg_locals lg = map snd bs;
  p_edges : edged done (lg_edges lg);
  p_seals : forall n, n < sz g -> (nth_error (map va_sealed (lg_nodes lg)) n = Some true <-> flagged done n);
  p_slots : var_slots bs = seq 0 (lg_count lg)
}.
Lemma state_pstate : forall bs done lg n, state bs done lg -> pstate bs done n lg.
Proof. intros bs done lg n S. constructor; try apply S. apply settled_pending, S. Qed.
Lemma var_slots_app : forall a b, var_slots (a ++ b) = var_slots a ++ var_slots b.
Proof. induction a as [|[[n x] [t s|p]] a IH]; intros b; cbn; auto. now rewrite IH. Qed.

Lemma padd : forall bs done n lg x e c, n < sz g -> pstate bs done n lg -> var_slots [(n, x, e)] = seq (lg_count lg) (c - lg_count lg) -> lg_count lg <= c ->
  exists lg', insert_at (push_local lg c e) n x (Local (length (lg_locals lg)) n) = Ok lg' /\ pstate (bs ++ [(n, x, e)]) done n lg' /\ lg_count lg' = c.
Proof.
  intros bs done n lg x e c L P V C. destruct (@add_ok g G bs lg n x c e L (p_pending P)) as (lg' & E & PE & E1 & E2 & E3 & E4).
  { rewrite (p_locals P). apply map_length. }
  exists lg'. split; [exact E|]. split; [|exact E2]. constructor.
  - exact PE.
  - rewrite E3, (p_locals P), map_app. reflexivity.
  - rewrite E1. apply P.
  - rewrite E4. apply P.
  - rewrite var_slots_app, (p_slots P), V, E2. rewrite <- seq_app. f_equal. lia.
Qed.
Lemma pflow : forall bs done n lg, n < sz g -> pstate bs done n lg -> exists lg', flow order lg n = Ok lg' /\ state bs done lg' /\ lg_count lg' = lg_count lg.
Proof.
  intros bs done n lg L P. destruct (@flow_ok g G order ORD bs lg n L (p_pending P)) as (lg' & E & ST & F1 & F2 & F3 & F4). exists lg'. split; [exact E|]. split; [|exact F2].
  constructor; [exact ST|rewrite F3; apply P|rewrite F1; apply P|rewrite F4; apply P|rewrite F2; apply P].
Qed.
Lemma root_in : 0 < sz g.
Proof. destruct (gd_root G) as (t & R). apply nth_error_Some. unfold node in R. congruence. Qed.
Lemma seed_loop_ok : forall vs bs done lg, pstate bs done 0 lg ->
  exists lg', seed_loop lg (combine vs (seq (lg_count lg) (length vs))) = Ok lg' /\ pstate (bs ++ seeded (lg_count lg) vs) done 0 lg' /\ lg_count lg' = lg_count lg + length vs.
Proof.
  induction vs as [|[x t] vs IH]; intros bs done lg P; cbn [length seq combine seed_loop seeded].
  - exists lg. rewrite app_nil_r. split; [reflexivity|]. split; [exact P|lia].
  - destruct (@padd bs done 0 lg x (EVar t (lg_count lg)) (S (lg_count lg)) root_in P) as (lg1 & E & P1 & C1).
    { replace (S (lg_count lg) - lg_count lg) with 1 by lia. reflexivity. }
    { lia. }
    cbn [length] in E. rewrite E. cbn [rbind]. destruct (IH _ _ _ P1) as (lg2 & E2 & P2 & C2). rewrite C1 in *. exists lg2. split; [exact E2|].
    split; [rewrite <- app_assoc in P2; exact P2|lia].
Qed.
Lemma seed_ok : forall lg vs, built g lg -> exists lg', seed order lg (seed_vars vs) = Ok lg' /\ state (history vs []) [] lg' /\ lg_count lg' = length vs.
Proof.
  intros lg vs B. pose proof (built_state B) as ST. apply (fun S => @state_pstate _ _ _ 0 S) in ST. unfold seed. rewrite seed_vars_nums.
  destruct (seed_loop_ok vs ST) as (lg1 & E & P & C). rewrite (bl_count B) in *. rewrite E. cbn [rbind]. destruct (pflow root_in P) as (lg2 & E2 & S2 & C2). exists lg2. split; [exact E2|].
  split; [|lia]. unfold history. cbn. rewrite app_nil_r. exact S2.
Qed.

(** ** Changes *)
Lemma introduced_app : forall cs cs' k, introduced k (cs ++ cs') = introduced k cs ++ introduced (k + length (var_slots (introduced k cs))) cs'.
Proof.
  induction cs as [|c cs IH]; intros cs' k; cbn [introduced app]; [cbn; f_equal; lia|].
  destruct c; cbn [introduced app]; rewrite IH; cbn [var_slots length app]; try reflexivity.
  now rewrite <- plus_n_Sm.
Qed.
Lemma seeded_slots : forall vs k, length (var_slots (seeded k vs)) = length vs.
Proof. induction vs as [|[x t] vs IH]; intros k; cbn; auto. Qed.
Lemma history_snoc : forall vs cs c lg done, state (history vs cs) done lg ->
  history vs (cs ++ [c]) = history vs cs ++ introduced (lg_count lg) [c].
Proof.
  intros vs cs c lg done S. unfold history. rewrite introduced_app, app_assoc. f_equal. f_equal.
  pose proof (s_slots S) as H. unfold history in H. rewrite var_slots_app in H. apply (f_equal (@length nat)) in H. rewrite app_length, seq_length, seeded_slots in H. lia.
Qed.

Lemma edged_same : forall done c es, (forall o a, c <> BreakEdge o a) -> edged done es -> edged (done ++ [c]) es.
Proof.
  intros done c es N (T & P). split; [auto|]. intros a b. rewrite P. unfold is_broken. rewrite in_app_iff. cbn. split.
  - intros [H|(H & K)]; [auto|]. right. split; [auto|]. intros [X|[X|[]]]; [auto|]. now apply N in X.
  - intros [H|(H & K)]; [auto|]. right. tauto.
Qed.
Lemma flagged_same : forall done c n, (forall m, c <> Seal m) -> (forall m, c <> SealExpr m) -> (flagged (done ++ [c]) n <-> flagged done n).
Proof.
  intros done c n A B. unfold flagged. rewrite !in_app_iff. cbn. split; [|tauto]. intros [H|[H|[[H|[H|[]]]|[H|[H|[]]]]]]; auto; [now apply A in H|now apply B in H].
Qed.

Lemma state_map : forall bs done lg nodes es, state bs done lg -> map va_map nodes = map va_map (lg_nodes lg) -> (forall done, edged done es -> flows g (LGraph nodes es (lg_count lg) (lg_locals lg))) ->
  forall done', edged done' es -> (forall n, n < sz g -> (nth_error (map va_sealed nodes) n = Some true <-> flagged done' n)) ->
  state bs done' (LGraph nodes es (lg_count lg) (lg_locals lg)).
Proof.
  intros bs done lg nodes es S M F done' E Z. destruct S as [(B & C) S2 S3 S4 S5].
  assert (LK : forall n x, look (LGraph nodes es (lg_count lg) (lg_locals lg)) n x = look lg n x).
  { intros n x. unfold look. cbn [lg_nodes]. assert (Q : option_map va_map (nth_error nodes n) = option_map va_map (nth_error (lg_nodes lg) n)).
    { rewrite <- !nth_error_map. now rewrite M. }
    destruct (nth_error nodes n), (nth_error (lg_nodes lg) n); cbn in Q; congruence. }
  constructor; auto. split.
  - constructor.
    + cbn. apply (f_equal (@length _)) in M. rewrite !map_length in M. rewrite M. apply (b_size B).
    + eauto.
    + intros n v V. cbn in V. assert (Q : nth_error (map va_map nodes) n = Some (va_map v)) by now apply map_nth_error.
      rewrite M, nth_error_map in Q. destruct (nth_error (lg_nodes lg) n) as [w|] eqn:W; [|discriminate]. cbn in Q. injection Q as <-. eapply b_uniq; eauto.
    + intros n x l. rewrite LK. apply (b_free B).
    + intros n x i. rewrite LK. apply (b_bound B).
  - intros n x H. destruct (C n x H) as (P & Q). split; intros; rewrite !LK; auto.
Qed.

Lemma joins_in : forall a b es, existsb (joins a b) es = true <-> In (a, b) (pairs es).
Proof.
  intros a b es. rewrite existsb_exists. unfold pairs. rewrite in_map_iff. split; intros (e & H & K); exists e.
  - apply joins_ends in K. auto.
  - split; [auto|]. now apply joins_ends.
Qed.
Lemma remove_pairs : forall a b es, NoDup (pairs es) -> (forall p, In p (pairs (remove_edge a b es)) <-> In p (pairs es) /\ p <> (a, b)) /\ NoDup (pairs (remove_edge a b es)) /\
  forall e, In e (remove_edge a b es) -> In e es.
Proof.
  induction es as [|e es IH]; intros N; cbn [remove_edge].
  - split; [intros p; cbn; tauto|]. auto.
  - inversion N as [|? ? X Y]; subst. destruct (IH Y) as (A & B & C). destruct (joins a b e) eqn:J.
    + apply joins_ends in J. split; [|split; [auto|intros; now right]]. intros p. cbn [pairs map In]. rewrite J. split.
      * intros I. split; [auto|]. intros ->. apply X. rewrite J. exact I.
      * intros ([<-|I] & NE); [congruence|auto].
    + assert (NE : ends e <> (a, b)) by (intros E; apply joins_ends in E; congruence). split; [|split].
      * intros p. cbn [pairs map In]. fold (pairs (remove_edge a b es)) (pairs es). rewrite A. split.
        -- intros [<-|(I & Q)]; auto.
        -- intros ([<-|I] & Q); auto.
      * cbn. constructor; [|exact B]. intros I. apply A in I. tauto.
      * intros x [<-|I]; [now left|right; auto].
Qed.

Lemma seal_node : forall bs done lg n c, state bs done lg -> n < sz g -> c = Seal n \/ c = SealExpr n -> exists lg', on_node lg n set_sealed = Ok lg' /\ state bs (done ++ [c]) lg' /\ lg_count lg' = lg_count lg.
Proof.
  intros bs done lg n c S L HC. destruct (@on_node_some lg n set_sealed) as (v & lg' & V & E & Q); [rewrite (b_size (proj1 (s_settled S))); lia|].
  exists lg'. split; [exact E|]. subst lg'. split; [|reflexivity].
  eapply state_map; eauto.
  - eapply map_put; eauto.
  - intros d Hd. eapply edged_flows. cbn. exact Hd.
  - apply edged_same; [|apply S]. intros o a X. destruct HC; congruence.
  - intros m Lm. rewrite nth_error_map, nth_put. pose proof (s_seals S Lm) as Z. rewrite nth_error_map in Z. destruct (Nat.eqb_spec n m) as [<-|NE].
    + rewrite V. cbn. split; [|reflexivity]. intros _. unfold flagged. rewrite !in_app_iff. cbn. tauto.
    + rewrite Z. unfold flagged. rewrite !in_app_iff. cbn. split; [tauto|]. intros [H|[H|[[H|[H|[]]]|[H|[H|[]]]]]]; auto; destruct HC; congruence.
Qed.

Lemma chg_ok : forall vs done lg c, state (history vs done) done lg -> in_graph g c ->
  exists b lg', apply_chg order lg c = Ok (b, lg') /\ state (history vs (done ++ [c])) (done ++ [c]) lg'.
Proof.
  intros vs done lg c S I. rewrite (history_snoc vs done c S). destruct c as [x t n|x to n|n|o a|n]; cbn [apply_chg in_graph introduced] in *.
  - unfold add_new_var. destruct (@padd _ done n lg x (EVar t (lg_count lg)) (1 + lg_count lg) I (state_pstate n S)) as (lg1 & E & P & C); [|lia|].
    { replace (1 + lg_count lg - lg_count lg) with 1 by lia. reflexivity. }
    cbn [Nat.add] in E. rewrite E. cbn [rbind]. destruct (pflow I P) as (lg2 & E2 & S2 & C2). rewrite E2. cbn [rbind]. exists true, lg2. split; [reflexivity|].
    destruct S2 as [T1 T2 T3 T4 T5]. constructor; auto; [apply edged_same; [discriminate|auto]|]. intros m L. rewrite T4 by auto. symmetry. apply flagged_same; discriminate.
  - unfold add_new_lazy. destruct (@padd _ done n lg x (EPtr to) (lg_count lg) I (state_pstate n S)) as (lg1 & E & P & C); [|lia|].
    { rewrite Nat.sub_diag. reflexivity. }
    rewrite E. cbn [rbind]. destruct (pflow I P) as (lg2 & E2 & S2 & C2). rewrite E2. cbn [rbind]. exists true, lg2. split; [reflexivity|].
    destruct S2 as [T1 T2 T3 T4 T5]. constructor; auto; [apply edged_same; [discriminate|auto]|]. intros m L. rewrite T4 by auto. symmetry. apply flagged_same; discriminate.
  - rewrite app_nil_r. destruct (@seal_node _ _ _ n (Seal n) S I (or_introl eq_refl)) as (lg1 & E & S1 & C1).
    destruct (nth_error (lg_nodes lg) n) as [v|] eqn:V; [|apply nth_error_None in V; rewrite (b_size (proj1 (s_settled S))) in V; lia].
    destruct (va_sealed v) eqn:Z.
    + exists false, lg. split; [reflexivity|]. destruct S as [T1 T2 T3 T4 T5]. constructor; auto; [apply edged_same; [discriminate|auto]|].
      intros m L. rewrite T4 by auto. unfold flagged. rewrite !in_app_iff. cbn. split; [tauto|]. intros [H|[H|[[H|[H|[]]]|[H|[H|[]]]]]]; auto; [|discriminate].
      injection H as <-. apply (T4 n L). rewrite (map_nth_error _ _ _ V). congruence.
    + rewrite E. cbn [rbind]. eauto.
  - rewrite app_nil_r. destruct (s_edges S) as ((T & F) & P). destruct (existsb (joins a o) (lg_edges lg)) eqn:X.
    + exists true. eexists. split; [reflexivity|].
      destruct (remove_pairs a o _ T) as (R1 & R2 & R3).
      assert (E' : edged (done ++ [BreakEdge o a]) (remove_edge a o (lg_edges lg))).
      { split; [split; [exact R2|intros e J; apply F, R3, J]|]. intros p q. rewrite R1, P. unfold is_broken. rewrite in_app_iff. cbn. destruct I as ((t & O) & CH). split.
        - intros ([H|(H & K)] & NE); [auto|]. right. split; [auto|]. intros [Y|[Y|[]]]; [auto|]. injection Y as -> ->. auto.
        - intros [H|(H & K)].
          + split; [auto|]. intros Y. injection Y as -> ->. apply (cb_lt G) in H. apply (child_lt G) in CH. lia.
          + split; [right; tauto|]. intros Y. injection Y as -> ->. tauto. }
      eapply state_map; eauto.
      * intros d Hd. eapply edged_flows. cbn. exact Hd.
      * intros m L. rewrite (s_seals S L). symmetry. apply flagged_same; discriminate.
    + exists false, lg. split; [reflexivity|]. destruct S as [T1 T2 T3 T4 T5]. constructor; auto.
      * split; [split; auto|]. intros p q. rewrite P. unfold is_broken. rewrite in_app_iff. cbn. split.
        -- intros [H|(H & K)]; [auto|]. right. split; [auto|]. intros [Y|[Y|[]]]; [auto|]. injection Y as -> ->.
           assert (Z : existsb (joins p q) (lg_edges lg) = true); [|congruence]. apply joins_in. apply P. auto.
        -- intros [H|(H & K)]; [auto|]. right. tauto.
      * intros m L. rewrite T4 by auto. symmetry. apply flagged_same; discriminate.
  - rewrite app_nil_r. destruct (@seal_node _ _ _ n (SealExpr n) S I (or_intror eq_refl)) as (lg1 & E & S1 & C1). rewrite E. cbn [rbind]. eauto.
Qed.

Lemma chgs_ok : forall vs cs done lg, state (history vs done) done lg -> Forall (in_graph g) cs ->
  exists lg', apply_chgs order lg cs = Ok lg' /\ state (history vs (done ++ cs)) (done ++ cs) lg'.
Proof.
  induction cs as [|c cs IH]; intros done lg S F; cbn.
  - exists lg. rewrite app_nil_r. auto.
  - inversion F; subst. destruct (@chg_ok vs done lg c S H1) as (b & lg1 & E & S1). rewrite E. cbn [rbind snd]. destruct (IH _ _ S1 H2) as (lg2 & E2 & S2). exists lg2. split; [exact E2|].
    now rewrite <- app_assoc in S2.
Qed.
Lemma chgs_app : forall cs1 cs2 lg, apply_chgs order lg (cs1 ++ cs2) = (let? l := apply_chgs order lg cs1 in apply_chgs order l cs2).
Proof.
  unfold apply_chgs. induction cs1 as [|c cs IH]; intros cs2 lg; cbn; [reflexivity|]. destruct (apply_chg order lg c) as [[b lg1]| |]; cbn; auto.
Qed.
End F.
