(** Type soundness of the ops. *)
From Coq Require Import String List ZArith NArith Bool Lia.
From Verif Require Import Model.Base Model.Value Model.TableCrate Model.RowPar Model.TableOps Model.Tuple Model.Exec Model.Intrinsics
  Model.Compare Model.Typed Spec.TableSpec Spec.TypeSpec Spec.ExecSpec Spec.CompareSpec Spec.TypingSpec Proofs.RegistryProofs Proofs.LinkProofs
  Proofs.ListLemmas Proofs.CompareProofs Proofs.RectProofs Proofs.TypedProofs Proofs.TypedTables.
Import ListNotations.

Lemma is_a_ty U v t : is_a U v t -> ty_of v = t.
Proof. destruct 1; reflexivity. Qed.
Lemma Forall2_snoc {A B} (R : A -> B -> Prop) xs ys x y : Forall2 R xs ys -> R x y -> Forall2 R (xs ++ [x]) (ys ++ [y]).
Proof. induction 1; cbn; auto. Qed.

Section Ops.
Variable W : Type.
Variable U : ty -> Prop.
Hypothesis HU : universe U.
Variable Sg : nat -> ty.
Variable L : nat.
Local Notation step := (step W).
Local Notation hold := (hold W).
Local Notation node := (node W).
Local Notation is_a := (is_a U).
Local Notation hold_ok := (hold_ok W U Sg L).
Local Notation step_ok := (step_ok W U Sg L).
Local Notation act_ok := (act_ok W U Sg L).
Local Notation node_ok := (node_ok W U Sg L).
Local Notation good_holds := (Forall2 (fun h g => hold_ok (sg_env g) (sg_in g) h (sg_out g))).

Ltac base := apply (U_base U HU); repeat (first [left; reflexivity|right]).

(** a table of good things *)
Definition good_val (v : value) : Prop := U (ty_of v) /\ is_a v (ty_of v).
Definition good (t : table) : Prop := rectangular t /\ cells_ok good_val t.
Lemma is_tab_good t : is_a (VTab t) TTab <-> good t.
Proof.
  unfold good. rewrite cells_all. split.
  - intro H. inversion H; subst. auto.
  - intros [H1 H2]. constructor; auto.
Qed.
Lemma is_row_good t i c : is_a (VTabRow t i c) TTabRow <-> good t /\ i < length t.
Proof.
  unfold good. rewrite cells_all. split.
  - intro H. inversion H; subst. auto.
  - intros [[H1 H2] H3]. constructor; auto.
Qed.
Lemma good_str s : good_val (VStr s).
Proof. split; [base|constructor]. Qed.
Lemma good_of v t : U t -> is_a v t -> good_val v.
Proof. intros Ut H. rewrite <- (is_a_ty _ _ _ H) in Ut. split; auto. rewrite (is_a_ty _ _ _ H). exact H. Qed.

(** *** what the arguments are *)
Definition plain (n : node) : Prop := n_binder n = None.
Lemma plain_row n D : plain n -> with_row W n D = D.
Proof. unfold plain, with_row. intros ->. reflexivity. Qed.

Definition sg_of (D : slots) (in_ty : ty) (p : bool * ty) : sig := Sig (if fst p then in_ty else TNil) (snd p) D.
Lemma take_args_ok D in_ty : U in_ty -> forall sg args hs, Forall (node_ok D) args -> Forall plain args -> Forall U (map snd sg) ->
  take_args in_ty sg args = Ok hs -> good_holds hs (map (sg_of D in_ty) sg).
Proof.
  intros Ui. induction sg as [|[b t] sg IH]; intros [|n args] hs Hn Hp Ht H; cbn [take_args] in H; try discriminate.
  - injection H as <-. constructor.
  - inversion Hn as [|? ? Hn0 Hns]; inversion Hp as [|? ? Hp0 Hps]; inversion Ht as [|? ? Ht0 Hts]; subst.
    destruct (supplied _ n) as [n1| |] eqn:E1; try discriminate. cbn [rbind] in H.
    destruct (supplied_ok W U HU _ _ _ (ltac:(destruct b; [exact Ui|base]) : U (if b then in_ty else TNil)) (proj1 Hn0) E1) as [-> Ein].
    destruct (returns t n) as [n2| |] eqn:E2; try discriminate. cbn [rbind] in H.
    destruct (returns_ok W U HU _ _ _ Ht0 (proj1 (proj2 Hn0)) E2) as [-> Eout].
    destruct (concrete n) as [h| |] eqn:E3; try discriminate. cbn [rbind] in H.
    destruct (take_args in_ty sg args) as [hs'| |] eqn:E4; try discriminate. cbn [rbind] in H. injection H as <-.
    constructor; [|eapply IH; eauto].
    assert (K := concrete_ok W U HU Sg L D n h Hn0 E3). rewrite plain_row in K by auto. cbn. rewrite <- Ein, <- Eout. exact K.
Qed.

Lemma gather_ok vars tout D' D tin v : is_a v tin -> forall sg pre acc ts k, Forall2 is_a (rev acc) ts ->
  (forall xs, Forall2 is_a xs (ts ++ map snd sg) -> act_ok (pre ++ map (sg_of D tin) sg) vars tout D' D (k xs)) ->
  act_ok (pre ++ map (sg_of D tin) sg) vars tout D' D (gather_args (map fst sg) (length pre) v acc k).
Proof.
  intros Hv. induction sg as [|[b t] sg IH]; intros pre acc ts k Ha Hk; cbn [map gather_args].
  - apply Hk. cbn [map]. rewrite app_nil_r. exact Ha.
  - cbn [act_ok]. exists (sg_of D tin (b, t)). split; [rewrite nth_error_app2, Nat.sub_diag by lia; reflexivity|].
    split; [intros s Hs; exact Hs|]. split; [destruct b; cbn; [exact Hv|constructor]|]. intros x Hx.
    specialize (IH (pre ++ [sg_of D tin (b, t)]) (x :: acc) (ts ++ [t]) k).
    rewrite app_length in IH. cbn [length] in IH. rewrite Nat.add_1_r in IH. rewrite <- !app_assoc in IH. cbn [app] in IH. apply IH.
    + cbn [rev]. apply Forall2_snoc; auto.
    + exact Hk.
Qed.

Lemma gather_step_ok D in_ty out sg f hs : good_holds hs (map (sg_of D in_ty) sg) ->
  (forall v xs, is_a v in_ty -> Forall2 is_a xs (map snd sg) -> behaves (fun x => is_a x out) (f v xs)) ->
  step_ok D in_ty (gather_step (map fst sg) f hs) out D.
Proof.
  intros F H. eapply op_ok; [exact F|]. intros v Hv.
  apply (gather_ok [] out D D in_ty v Hv sg [] [] []); [constructor|]. cbn [app]. intros xs Hxs.
  eapply act_try; [apply H; auto|]. intros x Hx. split; [exact Hx|intros s Hs; exact Hs].
Qed.

Lemma simple_ok D tin sg out f in_ty args s t : U in_ty -> Forall (node_ok D) args -> Forall plain args -> Forall U (map snd sg) ->
  match tin with Some a => U a | None => True end ->
  (forall v xs, is_a v in_ty -> match tin with Some a => in_ty = a | None => True end -> Forall2 is_a xs (map snd sg) ->
     behaves (fun x => is_a x out) (f v xs)) ->
  simple tin sg out f in_ty args = Ok (s, t) -> step_ok D in_ty s t D.
Proof.
  intros Ui Hn Hp Ht Ut Hf H. unfold simple in H.
  assert (Ein : match tin with Some a => in_ty = a | None => True end).
  { destruct tin as [a|]; auto. destruct (assert_input a in_ty) eqn:E; try discriminate. eapply input_ok; eauto. }
  destruct (match tin with Some t0 => assert_input t0 in_ty | None => Ok tt end) as [[]| |]; try discriminate. cbn [rbind] in H.
  destruct (take_args in_ty sg args) as [hs| |] eqn:E; try discriminate. cbn [rbind] in H. injection H as <- <-.
  apply gather_step_ok; auto. eapply take_args_ok; eauto.
Qed.

Lemma all_supplied_ok D in_ty : U in_ty -> forall args hs, Forall (node_ok D) args -> Forall plain args ->
  all_supplied in_ty args = Ok hs -> good_holds hs (map (fun n => Sig in_ty (n_out n) D) args).
Proof.
  intros Ui. induction args as [|n args IH]; intros hs Hn Hp H; cbn [all_supplied] in H.
  - injection H as <-. constructor.
  - inversion Hn as [|? ? Hn0 Hns]; inversion Hp as [|? ? Hp0 Hps]; subst.
    destruct (supplied in_ty n) as [n1| |] eqn:E1; try discriminate. cbn [rbind] in H.
    destruct (supplied_ok W U HU _ _ _ Ui (proj1 Hn0) E1) as [-> Ein].
    destruct (concrete n) as [h| |] eqn:E3; try discriminate. cbn [rbind] in H.
    destruct (all_supplied in_ty args) as [hs'| |] eqn:E4; try discriminate. cbn [rbind] in H. injection H as <-.
    cbn [map]. constructor; [|eapply IH; eauto].
    assert (K := concrete_ok W U HU Sg L D n h Hn0 E3). rewrite plain_row in K by auto. cbn. rewrite <- Ein. exact K.
Qed.
Lemma all_return_ok D in_ty t : U in_ty -> U t -> forall args hs, Forall (node_ok D) args -> Forall plain args ->
  all_return in_ty t args = Ok hs -> good_holds hs (map (fun _ => Sig in_ty t D) args).
Proof.
  intros Ui Ut. induction args as [|n args IH]; intros hs Hn Hp H; cbn [all_return] in H.
  - injection H as <-. constructor.
  - inversion Hn as [|? ? Hn0 Hns]; inversion Hp as [|? ? Hp0 Hps]; subst.
    destruct (supplied in_ty n) as [n1| |] eqn:E1; try discriminate. cbn [rbind] in H.
    destruct (supplied_ok W U HU _ _ _ Ui (proj1 Hn0) E1) as [-> Ein].
    destruct (returns t n) as [n2| |] eqn:E2; try discriminate. cbn [rbind] in H.
    destruct (returns_ok W U HU _ _ _ Ut (proj1 (proj2 Hn0)) E2) as [-> Eout].
    destruct (concrete n) as [h| |] eqn:E3; try discriminate. cbn [rbind] in H.
    destruct (all_return in_ty t args) as [hs'| |] eqn:E4; try discriminate. cbn [rbind] in H. injection H as <-.
    cbn [map]. constructor; [|eapply IH; eauto].
    assert (K := concrete_ok W U HU Sg L D n h Hn0 E3). rewrite plain_row in K by auto. cbn. rewrite <- Ein, <- Eout. exact K.
Qed.

(** *** variadic ops *)
Section Variadic.
  Variables (T : Type) (t : ty) (from : value -> res T) (to : T -> value) (agg : T -> T -> T * bool).
  Hypothesis from_to : forall v, is_a v t -> exists a, from v = Ok a.
  Hypothesis to_t : forall a, is_a (to a) t.
  Hypothesis Ut : U t.
  Lemma agg_loop_ok D in_ty v : is_a v in_ty -> forall k i prev args, (forall j, j < k -> nth_error args (i + j) = Some (Sig in_ty t D)) ->
    act_ok args [] t D D (agg_loop W from to agg k i v prev).
  Proof.
    intros Hv. induction k as [|k IH]; intros i prev args Ha; cbn [agg_loop].
    - split; [apply to_t|intros s Hs; exact Hs].
    - exists (Sig in_ty t D). split; [rewrite <- (Ha 0) by lia; f_equal; lia|]. split; [intros s Hs; exact Hs|]. split; [exact Hv|].
      intros x Hx. destruct (from_to x Hx) as [a E]. rewrite E. cbn [try]. destruct (agg prev a) as [y [|]].
      + split; [apply to_t|intros s Hs; exact Hs].
      + apply IH. intros j Hj. rewrite <- (Ha (Datatypes.S j)) by lia. f_equal. lia.
  Qed.
  Lemma same_args D in_ty (args : list node) j : j < length args -> nth_error (map (fun _ => Sig in_ty t D) args) j = Some (Sig in_ty t D).
  Proof. intro H. rewrite nth_error_map. destruct (nth_error args j) eqn:E; [reflexivity|]. apply nth_error_None in E. lia. Qed.
  Lemma agnostic_ok D in_ty args s t' : U in_ty -> Forall (node_ok D) args -> Forall plain args ->
    variadic_agnostic t from to agg in_ty args = Ok (s, t') -> step_ok D in_ty s t' D.
  Proof.
    intros Ui Hn Hp H. unfold variadic_agnostic in H. destruct args as [|n args]; [discriminate|].
    destruct (all_return in_ty t (n :: args)) as [hs| |] eqn:E; try discriminate. cbn [rbind] in H. injection H as <- <-.
    assert (F := all_return_ok D in_ty t Ui Ut _ _ Hn Hp E).
    assert (Le : length hs = Datatypes.S (length args)).
    { apply Forall2_length' in F. rewrite map_length in F. exact F. }
    eapply op_ok; [exact F|]. intros v Hv. exists (Sig in_ty t D). split; [reflexivity|]. split; [intros x Hx; exact Hx|]. split; [exact Hv|].
    intros x Hx. destruct (from_to x Hx) as [a Ea]. rewrite Ea. cbn [try]. eapply agg_loop_ok; [exact Hv|].
    intros j Hj. rewrite Le in Hj. cbn in Hj. apply same_args. cbn. lia.
  Qed.
  Lemma constrained_ok D in_ty args s t' : U in_ty -> Forall (node_ok D) args -> Forall plain args ->
    variadic_constrained t from to agg in_ty args = Ok (s, t') -> step_ok D in_ty s t' D.
  Proof.
    intros Ui Hn Hp H. unfold variadic_constrained in H. destruct (assert_input t in_ty) as [u| |] eqn:Ei; try discriminate. cbn [rbind] in H.
    apply (input_ok U HU) in Ei; auto. subst in_ty. destruct args as [|n args]; [discriminate|].
    destruct (all_return t t (n :: args)) as [hs| |] eqn:E; try discriminate. cbn [rbind] in H. injection H as <- <-.
    assert (F := all_return_ok D t t Ui Ut _ _ Hn Hp E).
    assert (Le : length hs = length (n :: args)).
    { apply Forall2_length' in F. rewrite map_length in F. exact F. }
    eapply op_ok; [exact F|]. intros v Hv. destruct (from_to v Hv) as [a Ea]. rewrite Ea. cbn [try]. eapply agg_loop_ok; [exact Hv|].
    intros j Hj. rewrite Le in Hj. apply same_args. exact Hj.
  Qed.
End Variadic.

Lemma from_bool v : is_a v TBool -> exists a, as_bool v = Ok a.
Proof. inversion 1; subst. eexists. reflexivity. Qed.
Lemma from_num v : is_a v TNum -> exists a, as_num v = Ok a.
Proof. inversion 1; subst. eexists. reflexivity. Qed.
Lemma from_str v : is_a v TStr -> exists a, as_str v = Ok a.
Proof. inversion 1; subst. eexists. reflexivity. Qed.

(** *** cmp, eq *)
Fixpoint is_has v t (H : is_a v t) {struct H} : has_ty v t.
Proof.
  destruct H as [| | | | | |d k fs vs E F]; try constructor.
  assert (G : have_tys vs (map snd fs)).
  { clear E. induction F as [|x t vs ts Hx F IH]; constructor; [exact (is_has _ _ Hx)|exact IH]. }
  destruct d as [n [vr|fs']]; unfold variant_fields in E; cbn [td_tv] in E.
  - destruct (nth_error vr k) as [[x o]|] eqn:En; [|discriminate].
    apply has_sum with x o; [exact En|]. destruct o; injection E as <-; exact G.
  - destruct k; [|discriminate]. injection E as <-. constructor. exact G.
Qed.

Definition ty_fields_ind (P : ty -> Prop)
  (H0 : forall t, (forall d, t <> TDef d) -> P t)
  (H1 : forall n vs, P (TDef (TyDef n (TSum vs))))
  (H2 : forall n fs, (forall x t, In (x, t) fs -> P t) -> P (TDef (TyDef n (TProduct fs)))) : forall t, P t.
Proof.
  fix IH 1. intro t. destruct t as [| | | | | |[n [vs|fs]]]; try (apply H0; discriminate).
  - apply H1.
  - apply H2. induction fs as [|[y u] fs IHfs]; intros x t Hin; [destruct Hin|].
    destruct Hin as [E|Hin]; [injection E as _ <-; apply IH|eapply IHfs; eauto].
Qed.

Lemma ord_is_ord d : U (TDef d) -> is_ord d = true -> TDef d = TOrd.
Proof. intros Ud H. apply (U_eq U HU); [exact Ud|base|exact H]. Qed.

Lemma sequence_in {A} (l : list (res A)) xs : sequence l = Ok xs -> forall r, In r l -> exists a, r = Ok a.
Proof.
  revert xs. induction l as [|r l IH]; intros xs H r0 Hin; [destruct Hin|]. cbn [sequence] in H.
  destruct r as [a| |]; try discriminate. cbn [rbind] in H. destruct (sequence l) as [l'| |] eqn:E; try discriminate.
  destruct Hin as [<-|Hin]; eauto.
Qed.

Lemma fields_in {A} (fs : list (str * ty)) (f : ty -> A) name j c : find_field name (map (fun p : str * ty => let (x, t) := p in (x, f t)) fs) = Some (j, c) ->
  exists t, In t (map snd fs) /\ nth_error (map snd fs) j = Some t /\ c = f t.
Proof.
  revert j c. induction fs as [|[x t] fs IH]; intros j c H; cbn in H; [discriminate|]. destruct (str_eqb x name).
  - injection H as <- <-. exists t. cbn. auto.
  - destruct (find_field name _) as [[i a]|] eqn:E; [|discriminate]. injection H as <- <-.
    destruct (IH _ _ eq_refl) as (u & Hu & Hn & ->). exists u. cbn. auto.
Qed.

Lemma comparable_of (stp : ty -> hold -> res step) (mk : nat -> nat -> hold) (el : nat -> nat -> step -> hold) :
  (forall h, stp TTab h = Err 7) -> (forall h, stp TTabRow h = Err 7) ->
  (forall d h s, stp (TDef d) h = Ok s -> is_ord d = true \/
     is_tuple d = true /\ exists n fs es, d = TyDef n (TProduct fs) /\
       sequence (map (fun i => match find_field (tfield i) (map (fun f : str * ty => let (x, t) := f in (x, stp t)) fs) with
                               | Some (j, c) => let? s := c (mk i j) in Ok (el i j s) | None => Err 9 end) (seq 0 (length fs))) = Ok es) ->
  forall t, U t -> forall h s, stp t h = Ok s -> comparable t.
Proof.
  intros T1 T2 T3. induction t as [t Ht|n vs|n fs IH] using ty_fields_ind; intros Ut h s H.
  - destruct t as [| | | | | |d]; try constructor; [rewrite T1 in H|rewrite T2 in H|destruct (Ht d eq_refl)]; discriminate.
  - destruct (T3 _ _ _ H) as [O|(_ & m & fs & es & E & _)]; [|discriminate]. rewrite (ord_is_ord _ Ut O). constructor.
  - destruct (T3 _ _ _ H) as [O|(Tu & m & fs' & es & E & S)]; [rewrite (ord_is_ord _ Ut O); constructor|].
    injection E as <- <-. destruct (u_tuples U HU _ Ut Tu) as (ts & N & E). rewrite E. constructor; auto.
    destruct (tuple_fields ts) as (m' & E' & M). rewrite E' in E. injection E as En Ef.
    apply Forall_forall. intros t Hin. destruct (In_nth_error _ _ Hin) as [i Hi].
    assert (Lt : i < length ts) by (apply nth_error_Some; congruence).
    assert (Lf : length fs = length ts) by (rewrite Ef, combine_length, map_length, seq_length; lia).
    assert (Is : In i (seq 0 (length fs))) by (apply in_seq; lia).
    assert (Q := sequence_in _ _ S _ (in_map _ _ i Is)). cbv beta in Q.
    destruct Q as [a Q].
    assert (X : find_field (tfield i) fs = Some (i, t)).
    { rewrite Ef. assert (X := @find_tfield _ ts i 0). cbn [Nat.add] in X. rewrite X, Hi by congruence. reflexivity. }
    assert (Y : find_field (tfield i) (map (fun f : str * ty => let (x, t) := f in (x, stp t)) fs) = Some (i, stp t)).
    { clear - X. revert i X. assert (Z : forall name i, find_field name fs = Some (i, t) ->
        find_field name (map (fun f : str * ty => let (x, t) := f in (x, stp t)) fs) = Some (i, stp t)); [|intros; apply Z; auto].
      intro name. induction fs as [|[x u] fs IH]; intros i X; cbn in *; [discriminate|]. destruct (str_eqb x name).
      - injection X as <- <-. reflexivity.
      - destruct (find_field name fs) as [[k v]|] eqn:E; [|discriminate]. injection X as <- <-. rewrite (IH _ eq_refl). reflexivity. }
    rewrite Y in Q. cbn [rbind] in Q. destruct (stp t (mk i i)) as [s'| |] eqn:Es; try discriminate.
    assert (If : exists x, In (x, t) fs).
    { rewrite <- M in Hin. rewrite <- Ef in Hin. apply in_map_iff in Hin. destruct Hin as ([x u] & Eu & Hu). cbn in Eu. subst u. eauto. }
    destruct If as [x If]. apply (IH _ _ If) with (h := mk i i) (s := s'); auto.
    eapply (u_fields U HU) with (k := 0); [exact Ut|reflexivity|exact If].
Qed.

Lemma eq_comparable t (h : hold) s : U t -> eq_step t h = Ok s -> comparable t.
Proof.
  intros Ut. apply (comparable_of (@eq_step W) (fun i _ => HVar (S i)) (fun i j s => eq_elem i j s)); auto.
  clear. intros d h s H. cbn [eq_step] in H. destruct (is_ord d); [auto|]. destruct (is_tuple d); [|discriminate]. right. split; auto.
  destruct d as [n [vs|fs]]; [discriminate|]. destruct (sequence _) as [es| |] eqn:E in H; try discriminate. eauto 6.
Qed.
Lemma cmp_comparable t (h : hold) s : U t -> cmp_step t h = Ok s -> comparable t.
Proof.
  intros Ut. apply (comparable_of (@cmp_step W) (fun _ j => HExpr [dot_step (HVar 0) j]) (fun _ j s => cmp_elem j s)); auto.
  clear. intros d h s H. cbn [cmp_step] in H. destruct (is_ord d); [auto|]. destruct (is_tuple d); [|discriminate]. right. split; auto.
  destruct d as [n [vs|fs]]; [discriminate|]. destruct (sequence _) as [es| |] eqn:E in H; try discriminate. eauto 6.
Qed.

Lemma right_ok result t rhs s out D : right result t rhs s -> (forall c, is_a (result c) out) -> hold_ok D t rhs t -> step_ok D t s out D.
Proof.
  intros R Ho Hr v e w Hv He. specialize (R v e w (is_has _ _ Hv)).
  assert (C : t = TNil \/ ((forall w1 r, resolve rhs v e w = (w1, Ok r) -> has_ty r t -> invoke s v e w = (w1, Ok (result (order v r), e))) /\
         (forall w1 g, resolve rhs v e w = (w1, halt g) -> invoke s v e w = (w1, halt g)))).
  { destruct t; auto. }
  destruct C as [->|[R1 R2]].
  - rewrite R. split; [apply Ho|exact He].
  - specialize (Hr v e w Hv He). destruct (resolve rhs v e w) as [w1 [r|n|]] eqn:E; cbn [snd behaves] in Hr.
    + rewrite (R1 _ _ eq_refl (is_has _ _ Hr)). split; [apply Ho|exact He].
    + rewrite (R2 w1 (Some n) eq_refl). exact Hr.
    + destruct Hr.
Qed.

Lemma compare_arg_ok D in_ty args h : U in_ty -> Forall (node_ok D) args -> Forall plain args ->
  compare_arg in_ty args = Ok h -> hold_ok D in_ty h in_ty.
Proof.
  intros Ui Hn Hp H. unfold compare_arg in H. destruct args as [|n [|? ?]]; try discriminate.
  inversion Hn as [|? ? Hn0 _]; inversion Hp as [|? ? Hp0 _]; subst.
  destruct (supplied in_ty n) as [n1| |] eqn:E1; try discriminate. cbn [rbind] in H.
  destruct (supplied_ok W U HU _ _ _ Ui (proj1 Hn0) E1) as [-> Ein].
  destruct (returns in_ty n) as [n2| |] eqn:E2; try discriminate. cbn [rbind] in H.
  destruct (returns_ok W U HU _ _ _ Ui (proj1 (proj2 Hn0)) E2) as [-> Eout].
  assert (K := concrete_ok W U HU Sg L D n h Hn0 H). rewrite plain_row in K by auto. rewrite Ein, Eout in K. exact K.
Qed.

End Ops.
