(** Rounds of expansion, termination, and lookups in the finished graph. *)
From Coq Require Import String List ZArith NArith Bool Arith Lia.
From Verif Require Import Model.Base Model.Value Model.Ast Model.Registry Model.AstGraph Spec.AstGraphSpec Spec.RegistrySpec
  Proofs.RegistryProofs Proofs.AstFlatProofs Proofs.AstExpandProofs.
Import ListNotations.

Lemma alookup_in_str : forall V (m : list (str * V)) k v, alookup str_eqb k m = Some v -> In (k, v) m.
Proof.
  intros V m k v H. destruct (alookup_in _ _ str_eqb m k v H) as (k' & I & E). apply str_eqb_eq in E. now subst.
Qed.
Lemma registered_iter : forall k, registered k = iter_op k.
Proof. reflexivity. Qed.

Section S.
Variable s : defs.

Lemma shows_op_ext : forall g g' o t, ext g g' -> inv g -> keyed g' o = keyed g o -> shows_op (df_impls s) g o t -> shows_op (df_impls s) g' o t.
Proof.
  intros g g' o t E I K (k & ps & A & B & C & D). exists k, ps. split; [auto|]. split; [|split; [congruence|]].
  - eapply kept_of_impl; [|exact B]. intros ty. now apply recursive_use_ext.
  - eapply Forall_impl; [|exact D]. cbn. intros p. now apply shows_impl_ext.
Qed.

(** All implementations of [o] are cut. *)
Definition stuck (g : graph) (m : ids) (o : nat) (t : tag) : Prop :=
  exists k, alookup str_eqb (tg_str t) (df_impls s) = Some k /\
  forall e, In e (iter_op k) -> exists key d, e = (Some key, IDef d) /\ detect m g o (tg_str t ++ lit ":" ++ show_ty key) = true.
Lemma stuck_ext : forall g g' m m' o t, inv g -> ext g g' -> o < sz g -> (exists l, m' = l ++ m /\ forall c i, In (c, i) l -> sz g <= c) ->
  stuck g m o t -> stuck g' m' o t.
Proof.
  intros g g' m m' o t I E L HM (k & A & B). exists k. split; [auto|]. intros e Ie. destruct (B e Ie) as (key & d & -> & D). exists key, d.
  split; [auto|]. rewrite (detect_ext g g' m m'); auto.
Qed.
Lemma stuck_entries : forall es op t st, (forall e, In e es -> exists key d, e = (Some key, IDef d) /\ detect (x_ids st) (x_g st) op (tg_str t ++ lit ":" ++ show_ty key) = true) ->
  expand_entries s op t st es = Ok (false, st).
Proof.
  induction es as [|e es IH]; intros op t st H; [reflexivity|]. cbn [expand_entries].
  destruct (H e (or_introl eq_refl)) as (key & d & -> & D). cbn [expand_entry]. rewrite D. cbn [rbind fst snd].
  rewrite IH; [reflexivity|]. intros; apply H; now right.
Qed.

Definition opnode (g : graph) (o : nat) (t : tag) : Prop := node g o = Some (NOp t).

(** [o] (with text [tg_str t]) calls what the new op nodes say. *)
Definition body_op (x y : str) : Prop := exists d, has_impl (df_impls s) x (IDef d) /\ occurs y (d_expr d).

Lemma in_registered : forall x k key i, In (x, k) (df_impls s) -> In (key, i) (registered k) -> has_impl (df_impls s) x i.
Proof.
  intros x k key i A B. exists k. split; [auto|]. unfold registered in B. apply in_app_or in B. destruct B as [B|B].
  - apply in_map_iff in B. destruct B as ([t' i'] & E & B). cbn in E. injection E as <- <-. eauto.
  - destruct (k_any k); [|destruct B]. destruct B as [B|[]]. injection B as <- <-. now left.
Qed.

Lemma expand_ops_spec : forall ops st b st', expand_ops s ops st = Ok (b, st') -> inv (x_g st) -> ids_ok (x_g st) (x_ids st) ->
  NoDup ops -> (forall o, In o ops -> o < sz (x_g st) /\ keyed (x_g st) o = []) ->
  ext (x_g st) (x_g st') /\ inv (x_g st') /\ ids_ok (x_g st') (x_ids st') /\
  (exists l, x_ids st' = l ++ x_ids st /\ forall c i, In (c, i) l -> sz (x_g st) <= c) /\
  (forall o, ~ In o ops -> keyed (x_g st') o = keyed (x_g st) o) /\
  (forall o, In o ops -> exists t, opnode (x_g st) o t /\ shows_op (df_impls s) (x_g st') o t /\
      (keyed (x_g st') o = [] -> stuck (x_g st') (x_ids st') o t)) /\
  (forall n t', sz (x_g st) <= n -> opnode (x_g st') n t' -> exists o t, In o ops /\ opnode (x_g st) o t /\ ~ stuck (x_g st) (x_ids st) o t /\ body_op (tg_str t) (tg_str t')) /\
  (b = false -> st' = st) /\
  (b = true -> exists o t, In o ops /\ opnode (x_g st) o t /\ ~ stuck (x_g st) (x_ids st) o t) /\
  (forall o t d op', In o ops -> opnode (x_g st) o t -> (forall k, In (tg_str t, k) (df_impls s) -> k_any k = Some (IDef d)) -> occurs op' (d_expr d) ->
      b = true /\ exists n t', sz (x_g st) <= n /\ opnode (x_g st') n t' /\ tg_str t' = op').
Proof.
  induction ops as [|op ops IH]; intros st b st' H I OK ND HO; cbn [expand_ops] in H.
  - injection H as <- <-. split; [apply ext_refl|]. split; [auto|]. split; [auto|]. split; [exists []; split; [auto|intros ? ? []]|].
    split; [auto|]. split; [intros o []|]. split. { intros n t' L Nn. apply nth_error_None in L. unfold opnode, node in Nn. congruence. }
    split; [auto|]. split; [discriminate|]. intros o t d op' [].
  - destruct (expand_def s op st) as [[b1 st1]| |] eqn:E1; cbn [rbind fst snd] in H; try discriminate.
    destruct (expand_ops s ops st1) as [[b2 st2]| |] eqn:E2; cbn [rbind fst snd] in H; try discriminate.
    injection H as <- <-. unfold expand_def in E1.
    destruct (node (x_g st) op) as [[t|? ?|? ?|?|?|? ?|? ?|?|?]|] eqn:N; try discriminate.
    destruct (alookup str_eqb (tg_str t) (df_impls s)) as [k|] eqn:Ek; [|discriminate].
    destruct (expand_entries_spec s _ _ _ _ _ _ E1 I OK N) as (ps & A1 & A2 & A3 & A4 & A5 & A6 & A7 & A8 & A9 & A10 & A11).
    assert (Kin := alookup_in_str _ _ _ _ Ek). assert (S1 := ext_size _ _ A1).
    apply NoDup_cons_iff in ND. destruct ND as [NI ND'].
    destruct (HO op (or_introl eq_refl)) as [Lop K0].
    assert (HO1 : forall o, In o ops -> o < sz (x_g st1) /\ keyed (x_g st1) o = []).
    { intros o Io. destruct (HO o (or_intror Io)) as [X Y]. split; [lia|]. rewrite A5; [auto|]. intros ->. auto. }
    destruct (IH _ _ _ E2 A2 A3 ND' HO1) as (B1 & B2 & B3 & B4 & B5 & B6 & B7 & B8 & B9 & B10).
    assert (KK : keyed (x_g st2) op = pairs_of ps) by (rewrite B5, A8, K0; auto).
    assert (MM : exists l, x_ids st2 = l ++ x_ids st /\ forall c i, In (c, i) l -> sz (x_g st) <= c).
    { destruct A4 as (l1 & Q1 & Q2), B4 as (l2 & Q3 & Q4). exists (l2 ++ l1). rewrite Q3, Q1, app_assoc. split; [auto|].
      intros c i Ic. apply in_app_or in Ic. destruct Ic as [Ic|Ic]; [apply Q4 in Ic; lia|eauto]. }
    assert (NS : b1 = true -> ~ stuck (x_g st) (x_ids st) op t).
    { intros -> (k' & Q1 & Q2). rewrite Ek in Q1. injection Q1 as <-. rewrite (stuck_entries _ _ _ _ Q2) in E1. discriminate. }
    assert (ON : forall o t', o < sz (x_g st) -> opnode (x_g st1) o t' -> opnode (x_g st) o t').
    { intros o t' Lo Q. unfold opnode in *. now rewrite (ext_node _ _ o A1 Lo) in Q. }
    assert (SB : forall o t', o < sz (x_g st) -> ~ stuck (x_g st1) (x_ids st1) o t' -> ~ stuck (x_g st) (x_ids st) o t').
    { intros o t' Lo Q X. apply Q. eapply stuck_ext; [exact I|exact A1|auto|exact A4|exact X]. }
    split; [eapply ext_trans; eauto|]. split; [auto|]. split; [auto|]. split; [exact MM|].
    split; [|split; [|split; [|split; [|split]]]].
    + intros o No. rewrite B5, A5; auto; intros X; apply No; cbn; auto.
    + intros o [<-|Io].
      * exists t. split; [exact N|]. split.
        -- exists k, ps. split; [auto|]. split; [|split; [exact KK|]].
           ++ eapply kept_of_impl; [|exact A7]. intros ty. now apply recursive_use_ext.
           ++ eapply Forall_impl; [|exact A9]. cbn. intros p [_ Y]. eapply shows_impl_ext; eauto.
        -- rewrite KK. intros Z. destruct ps; [|discriminate]. cbn in A10. destruct (A11 A10) as [-> Y].
           apply (stuck_ext (x_g st) _ (x_ids st)); auto. exists k. auto.
      * destruct (HO o (or_intror Io)) as [Lo _]. destruct (B6 o Io) as (t' & Q1 & Q2 & Q3). exists t'. split; [now apply ON|auto].
    + intros n t' L Nn. destruct (le_lt_dec (sz (x_g st1)) n) as [L1|L1].
      * destruct (B7 n t' L1 Nn) as (o & t1 & Io & Q1 & Q2 & Q3). destruct (HO o (or_intror Io)) as [Lo _].
        exists o, t1. split; [now right|]. split; [now apply ON|]. split; [now apply SB|auto].
      * unfold opnode in Nn. rewrite (ext_node _ _ n B1 L1) in Nn. destruct (A6 n t' L Nn) as (key & d & Id & O).
        exists op, t. split; [now left|]. split; [exact N|]. split.
        -- apply NS. destruct b1; [reflexivity|]. destruct (A11 eq_refl) as [-> _]. apply nth_error_None in L. unfold node in Nn. congruence.
        -- exists d. split; [|auto]. eapply in_registered; eauto.
    + intros X. apply orb_false_elim in X. destruct X as [-> ->]. destruct (A11 eq_refl) as [-> _]. auto.
    + intros X. destruct b1.
      * exists op, t. split; [now left|]. split; [exact N|auto].
      * cbn in X. destruct (B9 X) as (o & t1 & Io & Q1 & Q2). destruct (HO o (or_intror Io)) as [Lo _]. exists o, t1.
        split; [now right|]. split; [now apply ON|now apply SB].
    + intros o t1 d op' [<-|Io] Q1 Q2 Q3.
      * assert (t1 = t) by (unfold opnode in Q1; congruence). subst t1. specialize (Q2 k Kin).
        assert (J : In (None, IDef d) (map fst ps)).
        { eapply kept_of_app_none; [exact A7|]. unfold iter_op. rewrite Q2. apply in_or_app. right. now left. }
        apply in_map_iff in J. destruct J as ([ee c] & Ee & J). cbn in Ee. subst ee. rewrite Forall_forall in A9. destruct (A9 _ J) as [Lc Sh].
        cbn [fst snd] in *. split.
        -- destruct ps; [destruct J|]. now rewrite A10.
        -- cbn in Sh. destruct Sh as (_ & x & Cx & Sx). assert (Lx : c < x < sz (x_g st1)) by (apply (child_range (x_g st1)); [auto|rewrite Cx; now left]).
           assert (SO : forall e m, sz (x_g st) <= m -> shows (x_g st1) m e -> occurs op' e -> exists n t', sz (x_g st) <= n /\ opnode (x_g st1) n t' /\ tg_str t' = op').
           { clear -A2. intros e m Lm Hs O. revert m Lm Hs. induction O as [e b t Ib Eb Et|e b e' Ib It O IHO]; intros m Lm Hs.
             - inversion Hs as [n0 e0 Hn Hc]; subst. destruct (In_nth_error _ _ Ib) as [j Hj].
               assert (X : exists o, In o (children (x_g st1) m) /\ shows_block (x_g st1) o b).
               { clear -Hc Ib. induction Hc; [destruct Ib|]. destruct Ib as [->|Ib]; [exists x; cbn; auto|]. destruct (IHHc Ib) as (o & A & B). exists o. cbn; auto. }
               destruct X as (o & Io & So). inversion So as [n1 b1 t1 N1 E1 _]; subst. apply child_range in Io; auto. exists o, t1. split; [lia|]. split; [exact N1|congruence].
             - inversion Hs as [n0 e0 Hn Hc]; subst.
               assert (X : exists o, In o (children (x_g st1) m) /\ shows_block (x_g st1) o b).
               { clear -Hc Ib. induction Hc; [destruct Ib|]. destruct Ib as [->|Ib]; [exists x; cbn; auto|]. destruct (IHHc Ib) as (o & A & B). exists o. cbn; auto. }
               destruct X as (o & Io & So). inversion So as [n1 b1 t1 N1 E1 Hts]; subst. apply child_range in Io; auto.
               assert (Y : exists a, In a (children (x_g st1) o) /\ shows_term (x_g st1) a (TArg (AExpr e'))).
               { clear -Hts It. induction Hts; [destruct It|]. destruct It as [->|It]; [exists x; cbn; auto|]. destruct (IHHts It) as (a & A & B). exists a. cbn; auto. }
               destruct Y as (a & Ia & Sa). apply child_range in Ia; auto. inversion Sa; subst. apply (IHO a); [lia|auto]. }
           destruct (SO _ x ltac:(lia) Sx Q3) as (n & t' & Ln & Nn & Et). exists n, t'. split; [auto|]. split; [|auto]. eapply ext_node_some; eauto.
      * destruct (HO o (or_intror Io)) as [Lo _].
        assert (Q1' : opnode (x_g st1) o t1) by (eapply ext_node_some; eauto).
        destruct (B10 o t1 d op' Io Q1' Q2 Q3) as [-> (n & t' & Ln & Nn & Et)]. split; [apply orb_true_r|]. exists n, t'. split; [lia|auto].
Qed.

Lemma unexpanded_spec : forall g o, In o (unexpanded g) <-> o < sz g /\ (exists t, opnode g o t) /\ keyed g o = [].
Proof.
  intros g o. unfold unexpanded. rewrite filter_In, in_seq, op_expanded_keyed. unfold opnode. split.
  - intros [L H]. split; [lia|]. destruct (node g o) as [[]|]; try discriminate. split; [eauto|]. destruct (keyed g o); [auto|discriminate].
  - intros (L & (t & ->) & ->). split; [lia|reflexivity].
Qed.
Lemma unexpanded_nodup : forall g, NoDup (unexpanded g).
Proof. intros. unfold unexpanded. apply NoDup_filter. apply seq_NoDup. Qed.

(** Every op is expanded or waits. *)
Definition sound (st : xstate) : Prop :=
  inv (x_g st) /\ ids_ok (x_g st) (x_ids st) /\
  forall o t, opnode (x_g st) o t -> keyed (x_g st) o = [] \/ shows_op (df_impls s) (x_g st) o t.
Definition complete (st : xstate) : Prop :=
  inv (x_g st) /\ forall o t, opnode (x_g st) o t -> shows_op (df_impls s) (x_g st) o t.

Lemma round_pre : forall st, forall o, In o (unexpanded (x_g st)) -> o < sz (x_g st) /\ keyed (x_g st) o = [].
Proof. intros st o H. apply unexpanded_spec in H. tauto. Qed.

Lemma round_sound : forall st b st', expand_defs s st = Ok (b, st') -> sound st ->
  ext (x_g st) (x_g st') /\ sound st' /\ (b = false -> complete st').
Proof.
  intros st b st' H (I & OK & HO). unfold expand_defs in H.
  destruct (expand_ops_spec _ _ _ _ H I OK (unexpanded_nodup _) (round_pre st)) as (A1 & A2 & A3 & A4 & A5 & A6 & A7 & A8 & _ & _).
  assert (OLD : forall o t, o < sz (x_g st) -> opnode (x_g st') o t -> shows_op (df_impls s) (x_g st') o t).
  { intros o t L Nn. assert (Nn' : opnode (x_g st) o t) by (unfold opnode in *; now rewrite (ext_node _ _ o A1 L) in Nn).
    destruct (in_dec Nat.eq_dec o (unexpanded (x_g st))) as [Io|Io].
    - destruct (A6 o Io) as (t' & Q1 & Q2 & _). unfold opnode in *. congruence.
    - destruct (HO o t Nn') as [K|K].
      + exfalso. apply Io. apply unexpanded_spec. split; [auto|]. split; [eauto|auto].
      + eapply shows_op_ext; eauto. }
  split; [auto|]. split.
  - split; [auto|]. split; [auto|]. intros o t Nn. destruct (le_lt_dec (sz (x_g st)) o) as [L|L]; [|right; auto].
    left. rewrite A5.
    + apply keyed_none. intros e Ie. left. apply (i_ord _ I) in Ie. lia.
    + intros X. apply unexpanded_spec in X. lia.
  - intros ->. split; [auto|]. assert (st' = st) as -> by auto. intros o t Nn. apply OLD; [|auto]. apply nth_error_Some. unfold opnode, node in Nn. congruence.
Qed.

Lemma loop_sound : forall more st st', expand_loop s more st = Ok st' -> sound st -> ext (x_g st) (x_g st') /\ complete st'.
Proof.
  induction more as [|more IH]; intros st st' H Hs; cbn [expand_loop] in H;
    (destruct (expand_defs s st) as [[b st1]| |] eqn:E; cbn [rbind fst snd] in H; try discriminate);
    destruct (round_sound _ _ _ E Hs) as (A & B & C); destruct b.
  - discriminate.
  - injection H as <-. auto.
  - destruct (IH _ _ H B) as [D F]. split; [eapply ext_trans; eauto|auto].
  - injection H as <-. auto.
Qed.

Lemma flatten_start : forall e g cs root, flatten_expr s (Graph [] []) e [] = Ok (root, g, cs) -> sound (XState g cs []) /\ root = 0 /\ shows g 0 e.
Proof.
  intros e g cs root H. destruct (flatten_spec s _ _ _ _ _ _ H) as (-> & B & _ & Sh & (xs & ys & N & E & D & F) & _).
  { intros x []. }
  cbn in *. split; [|auto]. rewrite Forall_forall in F.
  assert (NK : forall o k c, ~ In (Edge o c (RKeyed k)) (g_edges g)).
  { intros o k c I. rewrite E in I. apply F in I. destruct I as (X & _). discriminate X. }
  split; [|split; [intros c id []|]].
  - constructor.
    + cbn [x_g]. intros x Ix. assert (X := B x Ix). rewrite E in Ix. apply F in Ix. lia.
    + intros n L. cbn [x_g] in *. rewrite N in L. cbn in L. destruct (seq_one ys 1 (length xs) n D ltac:(lia)) as (x & Fx).
      exists (e_src x). unfold parents. rewrite E. rewrite (filter_ext_in _ (fun e => Nat.eqb (e_dst e) n)), Fx; [reflexivity|].
      intros y Iy. apply F in Iy. destruct Iy as (-> & _). apply andb_true_r.
    + intros o c k I. exfalso. eapply NK; eauto.
  - intros o t _. left. destruct (keyed _ o) as [|[k c] l] eqn:K; [auto|]. exfalso. assert (X : In (k, c) (keyed g o)) by (cbn in K; rewrite K; now left).
    apply keyed_in in X. eapply NK; eauto.
Qed.

Lemma init_complete : forall e g cs, init s e = Ok (g, cs) ->
  inv g /\ shows g 0 e /\ forall o t, node g o = Some (NOp t) -> shows_op (df_impls s) g o t.
Proof.
  intros e g cs H. unfold init in H. destruct (flatten_expr s (Graph [] []) e []) as [[[root g0] c0]| |] eqn:E; cbn [rbind fst snd] in H; try discriminate.
  destruct (expand_loop s LOOPLIM _) as [st| |] eqn:EL; cbn [rbind] in H; try discriminate. injection H as <- <-.
  destruct (flatten_start _ _ _ _ E) as (A & _ & Sh). destruct (loop_sound _ _ _ EL A) as (X & I & B). split; [auto|]. split; [|exact B].
  eapply shows_ext'; eauto.
Qed.

(** ** Termination *)

Definition ranked (rank : str -> nat) (K : nat) (st : xstate) : Prop :=
  forall o t, opnode (x_g st) o t -> keyed (x_g st) o = [] -> rank (tg_str t) < K \/ stuck (x_g st) (x_ids st) o t.

Lemma round_ranked : forall rank K st b st', (forall x y, body_op x y -> rank y < rank x) -> expand_defs s st = Ok (b, st') -> sound st ->
  ranked rank K st -> ranked rank (pred K) st' /\ (K = 0 -> b = false).
Proof.
  intros rank K st b st' R H (I & OK & HO) HR. unfold expand_defs in H.
  destruct (expand_ops_spec _ _ _ _ H I OK (unexpanded_nodup _) (round_pre st)) as (A1 & A2 & A3 & A4 & A5 & A6 & A7 & A8 & A9 & _).
  assert (FR : forall o t, In o (unexpanded (x_g st)) -> opnode (x_g st) o t -> ~ stuck (x_g st) (x_ids st) o t -> rank (tg_str t) < K).
  { intros o t Io No Ns. apply unexpanded_spec in Io. destruct (HR o t No ltac:(tauto)); tauto. }
  split.
  - intros o t Nn K0. destruct (le_lt_dec (sz (x_g st)) o) as [L|L].
    + left. destruct (A7 o t L Nn) as (o' & t' & Io & No & Ns & Bo). specialize (FR o' t' Io No Ns). apply R in Bo. lia.
    + right. destruct (in_dec Nat.eq_dec o (unexpanded (x_g st))) as [Io|Io].
      * destruct (A6 o Io) as (t' & Q1 & Q2 & Q3). assert (t' = t). { unfold opnode in *. rewrite (ext_node _ _ o A1 L) in Nn. congruence. }
        subst. auto.
      * exfalso. apply Io. apply unexpanded_spec. split; [auto|]. split; [|rewrite A5 in K0; auto].
        exists t. unfold opnode in *. now rewrite (ext_node _ _ o A1 L) in Nn.
  - intros ->. destruct b; [|auto]. destruct (A9 eq_refl) as (o & t & Io & No & Ns). specialize (FR o t Io No Ns). lia.
Qed.

Lemma loop_ranked : forall rank, (forall x y, body_op x y -> rank y < rank x) -> forall more K st, K <= more -> sound st -> ranked rank K st ->
  (exists st', expand_loop s more st = Ok st') \/ (exists st' x, expand_defs s st' = x /\ (forall y, x <> Ok y) /\
     expand_loop s more st = match x with Ok _ => Panic | Err e => Err e | Panic => Panic end /\ sound st').
Proof.
  intros rank R. induction more as [|more IH]; intros K st L Hs HR; cbn [expand_loop];
    (destruct (expand_defs s st) as [[b st1]|e|] eqn:E; cbn [rbind fst snd];
     [|right; exists st, (Err e); rewrite E; split; [auto|]; split; [intros y; discriminate|]; split; auto|right; exists st, Panic; rewrite E; split; [auto|]; split; [intros y; discriminate|]; split; auto]);
    destruct (round_sound _ _ _ E Hs) as (_ & B & _); destruct (round_ranked _ _ _ _ _ R E Hs HR) as [C D].
  - assert (b = false) as -> by (apply D; lia). left; eauto.
  - destruct b; [|left; eauto]. apply (IH (pred K)); [lia|auto|auto].
Qed.

(** Rounds fail only with their own errors. *)
Lemma rmapM_param_err : forall ps e, rmapM (param_from_ast s) ps = Err e -> e = 4.
Proof.
  induction ps as [|p ps IH]; intros e H; cbn in H; [discriminate|]. destruct (param_from_ast s p) as [q|x|] eqn:E; cbn in H; try discriminate.
  - destruct (rmapM (param_from_ast s) ps) as [qs| |]; cbn in H; try discriminate. injection H as <-. now apply IH.
  - injection H as <-. unfold param_from_ast in E. destruct (snd p) as [pt|]; [|discriminate]. destruct (str_eqb pt _); [discriminate|].
    destruct (get_type _ _); [discriminate|]. now injection E.
Qed.
Lemma map_ty_tag_err : forall t e, map_ty_tag s t = Err e -> e = 4.
Proof. intros [t|] e; cbn; [|discriminate]. destruct (get_type _ _); [discriminate|]. intros H; now injection H. Qed.
Lemma term_node_err : forall t e, term_node t = Err e -> e = 7.
Proof.
  intros [[x|z x|c x|x|e]|x] e' E; try discriminate E. cbn in E.
  repeat (match type of E with match ?c with _ => _ end = _ => destruct c end; try discriminate; try (injection E as <-; reflexivity)).
Qed.
Lemma add_terms_err : forall ts g op e, add_terms s g op ts = Err e -> e = 4 \/ e = 7.
Proof.
  induction ts as [|t ts IH]; intros g op e H; cbn [add_terms] in H; [discriminate|].
  destruct (term_node t) as [nd|x|] eqn:Et; cbn [rbind] in H; try discriminate.
  2: { injection H as <-. apply term_node_err in Et. auto. }
  cbn [add_node] in H.
  match type of H with rbind ?h _ = _ => destruct h as [here|x|] eqn:Eh; cbn [rbind] in H; try discriminate end.
  - match type of H with rbind ?h _ = _ => destruct h as [r|x|] eqn:Er; cbn [rbind] in H; try discriminate end.
    injection H as <-. now apply IH in Er.
  - injection H as <-. destruct t as [[y|z y|c y|y|e0]|y]; try discriminate Eh.
    destruct (map_ty_tag s (ex_out e0)) eqn:Em; cbn in Eh; try discriminate. injection Eh as <-. apply map_ty_tag_err in Em. auto.
Qed.
Lemma add_blocks_err : forall bs g root e, add_blocks s g root bs = Err e -> e = 4 \/ e = 7.
Proof.
  induction bs as [|b bs IH]; intros g root e H; cbn [add_blocks] in H; [discriminate|].
  destruct (blk_op b) as [t|x|] eqn:Eop; cbn [rbind] in H; try discriminate.
  2: { destruct b as [op ? ? ?|op ? ? ?]; cbn in Eop; [destruct (is_op op) as [[]| |]|]; discriminate. }
  cbn [add_node] in H.
  match type of H with rbind ?h _ = _ => destruct h as [r|x|] eqn:E1; cbn [rbind] in H; try discriminate end;
    [|injection H as <-; apply map_ty_tag_err in E1; auto].
  match type of H with rbind ?h _ = _ => destruct h as [r2|x|] eqn:E2; cbn [rbind] in H; try discriminate end;
    [|injection H as <-; apply map_ty_tag_err in E2; auto].
  match type of H with rbind ?h _ = _ => destruct h as [r3|x|] eqn:E3; cbn [rbind] in H; try discriminate end;
    [|injection H as <-; apply add_terms_err in E3; auto].
  match type of H with rbind ?h _ = _ => destruct h as [r4|x|] eqn:E4; cbn [rbind] in H; try discriminate end.
  injection H as <-. now apply IH in E4.
Qed.
Lemma flat_loop_err : forall fuel g q cs e, flat_loop s fuel g q cs = Err e -> e = 4 \/ e = 7 \/ e = no_fuel.
Proof.
  induction fuel as [|fuel IH]; intros g q cs e H; (destruct q as [|[[root bs] o] q]; cbn [flat_loop] in H; [discriminate|]).
  - injection H as <-. auto.
  - destruct (add_blocks s g root bs) as [r|x|] eqn:E; cbn [rbind] in H; try discriminate.
    + now apply IH in H.
    + injection H as <-. apply add_blocks_err in E. tauto.
Qed.
Lemma flatten_err : forall g ex cs e, bound g -> flatten_expr s g ex cs = Err e -> e = 4 \/ e = 7.
Proof.
  intros g ex cs e B H. assert (NF := flatten_fuel s g ex cs B). rewrite H in NF. unfold flatten_expr in H. cbn [add_node] in H.
  destruct (map_ty_tag s (ex_out ex)) as [o|x|] eqn:Em; cbn [rbind] in H; try discriminate.
  - match type of H with rbind ?h _ = _ => destruct h as [r|x|] eqn:E; cbn [rbind] in H; try discriminate end.
    injection H as <-. apply flat_loop_err in E. destruct E as [E|[E|E]]; auto. subst. congruence.
  - injection H as <-. apply map_ty_tag_err in Em. auto.
Qed.
Lemma expand_entry_err : forall op t st en e, inv (x_g st) -> expand_entry s op t st en = Err e -> e = 4 \/ e = 7.
Proof.
  intros op t st [key i] e I H. unfold expand_entry in H. destruct i as [l f|d]; [discriminate|].
  destruct (match _ with Some id => detect _ _ _ _ | None => false end); [discriminate|].
  destruct (rmapM _ (d_params d)) as [ps|x|] eqn:Ep; cbn [rbind] in H; try discriminate.
  2: { injection H as <-. apply rmapM_param_err in Ep. auto. }
  cbn [add_node] in H. match type of H with rbind ?h _ = _ => destruct h as [r|x|] eqn:E; cbn [rbind] in H; try discriminate end.
  injection H as <-. eapply flatten_err; [|exact E]. intros y Iy. apply (inv_bound _ I) in Iy. cbn [g_nodes]. rewrite app_length. cbn. lia.
Qed.
Lemma expand_entries_err : forall es op t st e, inv (x_g st) -> ids_ok (x_g st) (x_ids st) -> node (x_g st) op = Some (NOp t) ->
  expand_entries s op t st es = Err e -> e = 4 \/ e = 7.
Proof.
  induction es as [|en es IH]; intros op t st e I OK N H; cbn [expand_entries] in H; [discriminate|].
  destruct (expand_entry s op t st en) as [[b1 st1]|x|] eqn:E1; cbn [rbind fst snd] in H; try discriminate.
  2: { injection H as <-. eapply expand_entry_err; eauto. }
  destruct (expand_entries s op t st1 es) as [r|x|] eqn:E2; cbn [rbind] in H; try discriminate. injection H as <-.
  destruct (expand_entry_spec s _ _ _ _ _ _ E1 I OK N) as ((A1 & A2 & A3 & _) & _). eapply (IH op t st1); eauto. eapply ext_node_some; eauto.
Qed.
Lemma expand_ops_err : forall ops st e, inv (x_g st) -> ids_ok (x_g st) (x_ids st) ->
  expand_ops s ops st = Err e -> e = 2 \/ e = 4 \/ e = 7.
Proof.
  induction ops as [|op ops IH]; intros st e I OK H; cbn [expand_ops] in H; [discriminate|].
  destruct (expand_def s op st) as [[b1 st1]|x|] eqn:E1; cbn [rbind fst snd] in H; try discriminate; unfold expand_def in E1;
    (destruct (node (x_g st) op) as [[t|? ?|? ?|?|?|? ?|? ?|?|?]|] eqn:N; try discriminate);
    (destruct (alookup str_eqb (tg_str t) (df_impls s)) as [k|] eqn:Ek; [|first [discriminate|injection E1 as <-; injection H as <-; auto]]).
  - destruct (expand_ops s ops st1) as [r|x|] eqn:E2; cbn [rbind] in H; try discriminate. injection H as <-.
    destruct (expand_entries_spec s _ _ _ _ _ _ E1 I OK N) as (ps & A1 & A2 & A3 & _). eauto.
  - injection H as <-. right. eapply expand_entries_err; eauto.
Qed.

Lemma init_ranked : forall rank e, (forall x y, body_op x y -> rank y < rank x) -> (forall x, occurs x e -> rank x < LOOPLIM) -> init s e <> Err 8.
Proof.
  intros rank e R HR H. unfold init in H. destruct (flatten_expr s (Graph [] []) e []) as [[[root g0] c0]|x|] eqn:E; cbn [rbind fst snd] in H; try discriminate.
  2: { injection H as ->. apply flatten_err in E; [destruct E; discriminate|]. intros y []. }
  destruct (flatten_start _ _ _ _ E) as (A & _ & Sh).
  destruct (flatten_spec s _ _ _ _ _ _ E) as (_ & _ & _ & _ & _ & Oc). { intros y []. }
  assert (RK : ranked rank LOOPLIM (XState g0 c0 [])).
  { intros o t No _. left. apply HR. apply (Oc o t); [cbn; lia|exact No]. }
  destruct (loop_ranked rank R LOOPLIM LOOPLIM _ (le_n _) A RK) as [(st' & X)|(st' & x & X1 & X2 & X3 & (I & OK & _))].
  - rewrite X in H. discriminate.
  - rewrite X3 in H. destruct x as [y|e1|]; cbn [rbind] in H; try discriminate. injection H as ->.
    apply expand_ops_err in X1; auto. destruct X1 as [X1|[X1|X1]]; discriminate.
Qed.

Lemma init_fuel : forall e, init s e <> Err no_fuel.
Proof.
  intros e H. unfold init in H. destruct (flatten_expr s (Graph [] []) e []) as [[[root g0] c0]|x|] eqn:E; cbn [rbind fst snd] in H; try discriminate.
  2: { injection H as ->. revert E. apply flatten_fuel. intros y []. }
  destruct (flatten_start _ _ _ _ E) as (A & _ & _).
  assert (L : forall more st, sound st -> expand_loop s more st <> Err no_fuel).
  { clear. induction more as [|more IH]; intros st Hs H; cbn [expand_loop] in H;
      (destruct (expand_defs s st) as [[b st1]|x|] eqn:E; cbn [rbind fst snd] in H; try discriminate).
    - destruct b; [|discriminate]. discriminate.
    - injection H as ->. destruct Hs as (I & OK & _). apply expand_ops_err in E; auto. destruct E as [E|[E|E]]; discriminate.
    - destruct b; [|discriminate]. destruct (round_sound _ _ _ E Hs) as (_ & B & _). now apply IH in H.
    - injection H as ->. destruct Hs as (I & OK & _). apply expand_ops_err in E; auto. destruct E as [E|[E|E]]; discriminate. }
  destruct (expand_loop s LOOPLIM _) as [st|x|] eqn:EL; cbn [rbind] in H; try discriminate. injection H as ->. revert EL. now apply L.
Qed.

(** Definitions without input type that call each other too deep never expand. *)
Definition untyped_deep (X : nat -> str -> Prop) : Prop :=
  forall n x, X (S n) x -> exists d y, (forall k, In (x, k) (df_impls s) -> k_any k = Some (IDef d)) /\ occurs y (d_expr d) /\ X n y.

Lemma round_cycle : forall X n st b st', untyped_deep X -> expand_defs s st = Ok (b, st') -> sound st ->
  (exists o t, opnode (x_g st) o t /\ keyed (x_g st) o = [] /\ X (S n) (tg_str t)) ->
  b = true /\ exists o t, opnode (x_g st') o t /\ keyed (x_g st') o = [] /\ X n (tg_str t).
Proof.
  intros X m st b st' C H (I & OK & HO) (o & t & No & K & Xt). unfold expand_defs in H.
  destruct (expand_ops_spec _ _ _ _ H I OK (unexpanded_nodup _) (round_pre st)) as (A1 & A2 & A3 & A4 & A5 & A6 & A7 & A8 & A9 & A10).
  destruct (C _ _ Xt) as (d & y & D1 & D2 & D3).
  assert (Io : In o (unexpanded (x_g st))).
  { apply unexpanded_spec. split; [apply nth_error_Some; unfold opnode, node in No; congruence|]. split; [eauto|auto]. }
  destruct (A10 o t d y Io No D1 D2) as (-> & n & t' & Ln & Nn & Et). split; [auto|]. exists n, t'. split; [auto|]. split; [|now rewrite Et].
  rewrite A5; [|intros Q; apply unexpanded_spec in Q; lia]. apply keyed_none. intros e Ie. left. apply (i_ord _ I) in Ie. lia.
Qed.
Lemma init_deep : forall X e x, untyped_deep X -> X (S LOOPLIM) x -> occurs x e -> forall r, init s e <> Ok r.
Proof.
  intros X e x C Xx O r H. unfold init in H. destruct (flatten_expr s (Graph [] []) e []) as [[[root g0] c0]|y|] eqn:E; cbn [rbind fst snd] in H; try discriminate.
  destruct (flatten_start _ _ _ _ E) as (A & _ & Sh).
  assert (L : forall more st st', sound st -> (exists o t, opnode (x_g st) o t /\ keyed (x_g st) o = [] /\ X (S more) (tg_str t)) -> expand_loop s more st <> Ok st').
  { clear -C. induction more as [|more IH]; intros st st' Hs W H; cbn [expand_loop] in H;
      (destruct (expand_defs s st) as [[b st1]|y|] eqn:E; cbn [rbind fst snd] in H; try discriminate);
      destruct (round_cycle _ _ _ _ _ C E Hs W) as [-> W']; [discriminate|].
    destruct (round_sound _ _ _ E Hs) as (_ & B & _). revert H. now apply IH. }
  destruct (expand_loop s LOOPLIM _) as [st|y|] eqn:EL; cbn [rbind] in H; try discriminate. revert EL. apply L; [auto|].
  destruct A as (I & _ & K).
  assert (SO : forall e m, shows g0 m e -> occurs x e -> exists n t', opnode g0 n t' /\ tg_str t' = x).
  { clear. intros e m Hs O. revert m Hs. induction O as [e b t Ib Eb Et|e b e' Ib It O IHO]; intros m Hs.
    - inversion Hs as [n0 e0 Hn Hc]; subst.
      assert (X : exists o, shows_block g0 o b).
      { clear -Hc Ib. induction Hc; [destruct Ib|]. destruct Ib as [->|Ib]; eauto. }
      destruct X as (o & So). inversion So as [n1 b1 t1 N1 E1 _]; subst. exists o, t1. split; [exact N1|congruence].
    - inversion Hs as [n0 e0 Hn Hc]; subst.
      assert (X : exists o, shows_block g0 o b).
      { clear -Hc Ib. induction Hc; [destruct Ib|]. destruct Ib as [->|Ib]; eauto. }
      destruct X as (o & So). inversion So as [n1 b1 t1 N1 E1 Hts]; subst.
      assert (Y : exists a, shows_term g0 a (TArg (AExpr e'))).
      { clear -Hts It. induction Hts; [destruct It|]. destruct It as [->|It]; eauto. }
      destruct Y as (a & Sa). inversion Sa; subst. eauto. }
  destruct (SO _ _ Sh O) as (n & t & Nn & Et). exists n, t. cbn [x_g]. split; [auto|]. split; [|now rewrite Et].
  destruct (flatten_spec s _ _ _ _ _ _ E) as (_ & _ & _ & _ & (xs & ys & _ & Ed & _ & F) & _). { intros y []. }
  apply keyed_none. intros ed Ie. right. rewrite Ed in Ie. cbn in Ie. rewrite Forall_forall in F. apply F in Ie. now destruct Ie as (-> & _).
Qed.
End S.
