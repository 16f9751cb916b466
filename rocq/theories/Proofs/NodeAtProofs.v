(** The word at a position. *)
From Coq Require Import String List ZArith NArith Bool Arith Lia Permutation.
From Verif Require Import Model.Base Model.Utf Model.Ast Model.Parse Model.Highlight Spec.ParseSpec Spec.LexSpec Proofs.AstInd Proofs.HighlightProofs.
From Verif Require Proofs.LexProofs Proofs.ParseSpanProofs Proofs.ParseMainProofs.
Import ListNotations.

Ltac snoc_inj := match goal with E : _ ++ [_] = _ ++ [_] |- _ => apply app_inj_tail in E; destruct E as [? ?]; subst end.

Definition leafin (s e : nat) (x : leaf) : Prop := s <= N.to_nat (tg_s (snd x)) /\ N.to_nat (tg_e (snd x)) <= e.
Lemma leafin_wide : forall s e s' e' l, Forall (leafin s e) l -> s' <= s -> e <= e' -> Forall (leafin s' e') l.
Proof. intros s e s' e' l H A B. eapply Forall_impl; [|exact H]. intros x [X Y]. split; lia. Qed.
Definition tag_in (t : tag) (l : list leaf) : Prop := Forall (leafin (N.to_nat (tg_s t)) (N.to_nat (tg_e t))) l.
Definition term_tag (t : term) : tag := match t with TArg a => arg_tag a | TFlag t => t end.

Section S.
  Variable line : str.
  Notation spa := (sp_arg line). Notation spt := (sp_term line). Notation spb := (sp_block line). Notation spe := (sp_expr line).

  Lemma sp_arg_tag : forall lo hi a, spa lo hi a -> lo <= N.to_nat (tg_s (arg_tag a)) /\ N.to_nat (tg_s (arg_tag a)) <= N.to_nat (tg_e (arg_tag a)) /\ N.to_nat (tg_e (arg_tag a)) <= hi.
  Proof.
    intros lo hi a H. inversion H as [? ? t S|? ? z t S|? ? c t S|? ? t S|? ? e S]; subst; cbn [arg_tag]; try (unfold sp_tag in S; tauto).
    inversion S as [? m ? t bs out T]; subst. cbn [ex_tag]. unfold sp_tag in T. tauto.
  Qed.
  Lemma sp_term_tag : forall lo hi t, spt lo hi t -> lo <= N.to_nat (tg_s (term_tag t)) /\ N.to_nat (tg_s (term_tag t)) <= N.to_nat (tg_e (term_tag t)) /\ N.to_nat (tg_e (term_tag t)) <= hi.
  Proof. intros lo hi t H. inversion H as [? ? a S|? ? t' S]; subst; cbn [term_tag]; [eapply sp_arg_tag; eauto|unfold sp_tag in S; tauto]. Qed.
  Lemma sp_opt_le : forall lo hi o, sp_opt line lo hi o -> lo <= hi.
  Proof. intros lo hi [t|] H; cbn in H; [unfold sp_tag in H; lia|auto]. Qed.

  (** A list that Fixpoint [go] of the model runs through. *)
  Definition gather {A} (f : A -> res (list leaf)) := fix go (l : list A) : res (list leaf) :=
    match l with [] => Ok [] | b :: bs => let? a := f b in let? l := go bs in Ok (a ++ l) end.
  Lemma gather_app : forall A (f : A -> res (list leaf)) l x r, gather f (l ++ [x]) = Ok r -> exists a b, gather f l = Ok a /\ f x = Ok b /\ r = a ++ b.
  Proof.
    intros A f l x. induction l as [|y l IH]; cbn [gather app]; intros r H.
    - destruct (f x) as [b| |]; cbn in H; try discriminate. injection H as <-. exists [], b. now rewrite app_nil_r.
    - destruct (f y) as [c| |]; cbn [rbind] in *; try discriminate. destruct (gather f (l ++ [x])) as [d| |] eqn:E; cbn [rbind] in *; try discriminate.
      injection H as <-. destruct (IH d eq_refl) as (a & b & -> & -> & ->). cbn [rbind]. exists (c ++ a), b. now rewrite app_assoc.
  Qed.

  Definition in_arg (a : arg) : Prop := forall lo hi l, spa lo hi a -> leaves_arg a = Ok l -> tag_in (arg_tag a) l.
  Definition in_term (t : term) : Prop := forall lo hi l, spt lo hi t -> leaves_term t = Ok l -> tag_in (term_tag t) l.
  Definition in_block (b : block) : Prop := forall lo hi l, spb lo hi b -> leaves_block b = Ok l ->
    lo <= hi /\ Forall (leafin (fst (block_range b)) (snd (block_range b))) l /\ Forall (leafin lo hi) l.
  Definition in_expr (e : expr) : Prop := forall lo hi l, spe lo hi e -> leaves_expr e = Ok l -> tag_in (ex_tag e) l.

  Lemma terms_in : forall ts, Forall in_term ts -> forall lo hi l, sp_terms line lo hi ts -> gather leaves_term ts = Ok l ->
    lo <= hi /\ Forall (leafin lo (match rev ts with [] => hi | t :: _ => N.to_nat (tg_e (term_tag t)) end)) l /\
    match rev ts with [] => True | t :: _ => lo <= N.to_nat (tg_e (term_tag t)) <= hi end.
  Proof.
    induction ts as [|t ts IH] using rev_ind; intros F lo hi l H E.
    - cbn in E. injection E as <-. inversion H as [? ? L|? ? ? ? ? ? ? X]; [|destruct ts; discriminate]. cbn. auto.
    - apply Forall_app in F. destruct F as [F Ft]. apply Forall_cons_iff in Ft. destruct Ft as [Ft _].
      inversion H as [? ? L|lo' m hi' ts' t' H1 H2]; subst; [destruct ts; discriminate|]. snoc_inj.
      destruct (gather_app _ _ _ _ _ E) as (a & b & Ea & Eb & ->). destruct (IH F _ _ _ H1 Ea) as (L & Fa & Lm).
      assert (T := sp_term_tag _ _ _ H2). assert (Fb := Ft _ _ _ H2 Eb). rewrite rev_app_distr. cbn [rev app].
      split; [lia|]. split; [|lia]. apply Forall_app. split.
      + eapply leafin_wide; [exact Fa|lia|]. destruct (rev ts); lia.
      + eapply leafin_wide; [exact Fb|lia|lia].
  Qed.
  Lemma blocks_in : forall bs, Forall in_block bs -> forall lo hi l, sp_blocks line lo hi bs -> gather leaves_block bs = Ok l -> lo <= hi /\ Forall (leafin lo hi) l.
  Proof.
    induction bs as [|b bs IH] using rev_ind; intros F lo hi l H E.
    - cbn in E. injection E as <-. inversion H as [? ? L|? ? ? ? ? ? ? X]; [|destruct bs; discriminate]. auto.
    - apply Forall_app in F. destruct F as [F Ft]. apply Forall_cons_iff in Ft. destruct Ft as [Ft _].
      inversion H as [? ? L|lo' m hi' ts' t' H1 H2]; subst; [destruct bs; discriminate|]. snoc_inj.
      destruct (gather_app _ _ _ _ _ E) as (a & b' & Ea & Eb & ->). destruct (IH F _ _ _ H1 Ea) as (L & Fa).
      destruct (Ft _ _ _ H2 Eb) as (Lb & _ & Fb).
      split; [lia|]. apply Forall_app. split; eapply leafin_wide; eauto; lia.
  Qed.

  Lemma one_in : forall ty t, tag_in t [(ty, t)].
  Proof. intros. constructor; [split; cbn; lia|constructor]. Qed.
  Lemma op_in : forall lo hi o t ts i out, sp_op line lo hi o -> blk_op (BPrefix o ts i out) = Ok t ->
    op_range o = (N.to_nat (tg_s t), N.to_nat (tg_e t)) /\ lo <= N.to_nat (tg_s t) /\ N.to_nat (tg_s t) <= N.to_nat (tg_e t) /\ N.to_nat (tg_e t) <= hi.
  Proof.
    intros lo hi [t0|cs n r] t ts i out S E; cbn [blk_op is_op op_range sp_op] in *.
    - injection E as <-. unfold sp_tag in S. split; [reflexivity|tauto].
    - destruct (Nat.eqb _ (length cs)); [|discriminate]. destruct (rev cs) as [|z l] eqn:R; [discriminate|]. injection E as <-. split; [reflexivity|].
      assert (cs = rev l ++ [z]) as -> by (rewrite <- (rev_involutive cs), R; reflexivity). clear R. revert lo S.
      induction (rev l) as [|y l' IH]; cbn; intros lo S.
      + inversion S as [|lo' m hi' t' ts' A B]; subst. inversion B; subst. unfold sp_tag in A. lia.
      + inversion S as [|lo' m hi' t' ts' A B]; subst. apply IH in B. unfold sp_tag in A. lia.
  Qed.

  Lemma leaves_in : (forall a, in_arg a) /\ (forall t, in_term t) /\ (forall b, in_block b) /\ (forall e, in_expr e).
  Proof.
    apply tree_all.
    1-4: intros; intros lo hi l _ E; cbn in E; injection E as <-; apply one_in.
    - intros e H lo hi l S E. inversion S; subst. eapply H; eauto.
    - intros a H lo hi l S E. inversion S; subst. eapply H; eauto.
    - intros t lo hi l _ E. cbn in E. injection E as <-. apply one_in.
    - intros o ts i out H lo hi l S E. inversion S as [lo' a b c hi' o' ts' i' out' Si So Sout St|]; subst.
      cbn [leaves_block] in E. destruct (blk_op (BPrefix o ts i out)) as [t| |] eqn:Eo; cbn [rbind] in E; try discriminate.
      change (fix go (ts : list term) : res (list leaf) := match ts with [] => Ok [] | t :: ts0 => let? a0 := leaves_term t in let? b0 := go ts0 in Ok (a0 ++ b0) end)
        with (gather leaves_term) in E.
      destruct (gather leaves_term ts) as [lt| |] eqn:Et; cbn [rbind] in E; try discriminate. injection E as <-.
      destruct (op_in _ _ _ _ _ _ _ So Eo) as (Er & O1 & O2 & O3). destruct (terms_in ts H _ _ _ St Et) as (L & Ft & Lt).
      assert (Lo : lo <= a) by (eapply sp_opt_le; eauto). assert (Lout : b <= c) by (eapply sp_opt_le; eauto).
      assert (Eend : snd (block_range (BPrefix o ts i out)) = match rev ts with [] => match out with Some t => N.to_nat (tg_e t) | None => snd (op_range o) end
                       | t :: _ => N.to_nat (tg_e (term_tag t)) end).
      { cbn [block_range snd]. destruct (rev ts) as [|[x|x] r]; reflexivity. }
      assert (Est : fst (block_range (BPrefix o ts i out)) <= N.to_nat (tg_s t)).
      { cbn [block_range fst]. destruct i as [ti|]; cbn in Si; [unfold sp_tag in Si; lia|]. rewrite Er. cbn [fst]. lia. }
      split; [lia|]. rewrite Eend. split; (constructor; [unfold leafin; cbn [snd]|]).
      + split; [exact Est|]. destruct (rev ts); [|lia]. destruct out as [ot|]; cbn in Sout; [unfold sp_tag in Sout; lia|]. rewrite Er. cbn [snd]. lia.
      + destruct (rev ts) as [|t' r] eqn:R.
        * assert (ts = []) as -> by (apply (f_equal (@rev _)) in R; now rewrite rev_involutive in R). cbn in Et. injection Et as <-. constructor.
        * eapply leafin_wide; [exact Ft|lia|lia].
      + lia.
      + eapply leafin_wide; [exact Ft|lia|]. destruct (rev ts); lia.
    - intros o x r out H lo hi l S E. inversion S as [|lo' a b c hi' o' x' r' out' Sx So Sr Sout]; subst.
      cbn [leaves_block blk_op rbind] in E. destruct (leaves_arg x) as [lx| |] eqn:Ex; cbn [rbind] in E; try discriminate. injection E as <-.
      assert (Tx := sp_arg_tag _ _ _ Sx). assert (Fx := H _ _ _ Sx Ex). unfold sp_tag in So, Sr. assert (Lo := sp_opt_le _ _ _ Sout).
      assert (Er : snd (block_range (BDot o x r out)) >= N.to_nat (tg_e r)).
      { cbn [block_range snd]. destruct out as [ot|]; cbn in Sout; [unfold sp_tag in Sout; lia|lia]. }
      assert (Es : fst (block_range (BDot o x r out)) <= N.to_nat (tg_s (arg_tag x))).
      { cbn [block_range fst]. destruct x; cbn [arg_tag]; lia. }
      split; [lia|]. split; (constructor; [unfold leafin; cbn [snd]; lia|]); apply Forall_app; split; try (constructor; [unfold leafin; cbn [snd]; lia|constructor]);
        (eapply leafin_wide; [exact Fx|lia|lia]).
    - intros t bs out H lo hi l S E. inversion S as [lo' m hi' t' bs' out' St Nb Sb So]; subst. cbn [leaves_expr] in E.
      change (fix go (bs : list block) : res (list leaf) := match bs with [] => Ok [] | b :: bs0 => let? a := leaves_block b in let? l0 := go bs0 in Ok (a ++ l0) end)
        with (gather leaves_block) in E.
      destruct (blocks_in bs H _ _ _ Sb E) as [L F]. assert (L2 := sp_opt_le _ _ _ So). unfold tag_in. cbn [ex_tag]. eapply leafin_wide; [exact F|lia|lia].
  Qed.

  (** ** Looking through the tree is looking through the leaves *)
  Definition hit (pos : nat) (x : leaf) : bool := covers_pos pos (snd x).
  Lemma find_app : forall A (f : A -> bool) a b, find f (a ++ b) = match find f a with Some x => Some x | None => find f b end.
  Proof. intros A f a b. induction a as [|x a IH]; cbn; [reflexivity|]. destruct (f x); auto. Qed.
  Lemma is_node_find : forall t pos ty, is_node t pos ty = find (hit pos) [(ty, t)].
  Proof. intros. unfold is_node. cbn. unfold hit. cbn. now destruct (covers_pos pos t). Qed.
  Lemma find_none : forall pos s e l, Forall (leafin s e) l -> within pos s e = false -> find (hit pos) l = None.
  Proof.
    intros pos s e l F W. induction F as [|x l [A B] F IH]; [reflexivity|]. cbn. unfold hit at 1. unfold covers_pos.
    destruct (within pos (N.to_nat (tg_s (snd x))) (N.to_nat (tg_e (snd x)))) eqn:X; [|exact IH]. exfalso. unfold within in *.
    apply andb_true_iff in X. destruct X as [X1 X2]. apply Nat.leb_le in X1. apply Nat.ltb_lt in X2.
    apply andb_false_iff in W. destruct W as [W|W]; [apply Nat.leb_gt in W|apply Nat.ltb_ge in W]; lia.
  Qed.
  Definition seek {A} (f : A -> res (option leaf)) := fix go (ts : list A) : res (option leaf) :=
    match ts with [] => Ok None | t :: ts => let? a := f t in match a with Some x => Ok (Some x) | None => go ts end end.
  Lemma seek_find : forall A (f : A -> res (option leaf)) (g : A -> res (list leaf)) pos l ls,
    Forall (fun x => forall lx, g x = Ok lx -> f x = Ok (find (hit pos) lx)) l -> gather g l = Ok ls -> seek f l = Ok (find (hit pos) ls).
  Proof.
    intros A f g pos l. induction l as [|x l IH]; cbn [gather seek]; intros ls F E; [injection E as <-; reflexivity|].
    apply Forall_cons_iff in F. destruct F as [Fx F]. destruct (g x) as [a| |]; cbn [rbind] in E; try discriminate.
    destruct (gather g l) as [b| |]; cbn [rbind] in E; try discriminate. injection E as <-. rewrite (Fx a eq_refl). cbn [rbind]. rewrite find_app.
    destruct (find (hit pos) a); [reflexivity|]. now apply IH.
  Qed.
  Variable pos : nat.
  Definition at_ok {A} (sp : nat -> nat -> A -> Prop) (f : A -> res (option leaf)) (g : A -> res (list leaf)) (x : A) : Prop :=
    forall lo hi l, sp lo hi x -> g x = Ok l -> f x = Ok (find (hit pos) l).
  Lemma sp_terms_each : forall lo hi ts, sp_terms line lo hi ts -> Forall (fun t => exists lo hi, spt lo hi t) ts.
  Proof.
    intros lo hi ts. revert hi. induction ts as [|t ts IH] using rev_ind; intros hi H; [constructor|].
    inversion H as [? ? L|lo' m hi' ts' t' H1 H2]; subst; [destruct ts; discriminate|]. snoc_inj.
    apply Forall_app. split; [eapply IH; eauto|]. constructor; [eauto|constructor].
  Qed.
  Lemma sp_blocks_each : forall lo hi bs, sp_blocks line lo hi bs -> Forall (fun b => exists lo hi, spb lo hi b) bs.
  Proof.
    intros lo hi ts. revert hi. induction ts as [|t ts IH] using rev_ind; intros hi H; [constructor|].
    inversion H as [? ? L|lo' m hi' ts' t' H1 H2]; subst; [destruct ts; discriminate|]. snoc_inj.
    apply Forall_app. split; [eapply IH; eauto|]. constructor; [eauto|constructor].
  Qed.
  Lemma each_ok : forall A (sp : nat -> nat -> A -> Prop) f g l, Forall (at_ok sp f g) l -> Forall (fun x => exists lo hi, sp lo hi x) l ->
    Forall (fun x => forall lx, g x = Ok lx -> f x = Ok (find (hit pos) lx)) l.
  Proof.
    intros A sp f g l H K. induction H as [|x l Hx H IH]; constructor; apply Forall_cons_iff in K; destruct K as [(lo & hi & K1) K2]; [|auto].
    intros lx E. eapply Hx; eauto.
  Qed.

  Lemma at_all : (forall a, at_ok spa (at_arg pos) leaves_arg a) /\ (forall t, at_ok spt (at_term pos) leaves_term t) /\
    (forall b, at_ok spb (at_block pos) leaves_block b) /\ (forall e, at_ok spe (at_expr pos) leaves_expr e).
  Proof.
    apply tree_all.
    1-4: intros; intros lo hi l _ E; cbn in E; injection E as <-; cbn [at_arg]; now rewrite is_node_find.
    - intros e H lo hi l S E. inversion S; subst. eapply H; eauto.
    - intros a H lo hi l S E. inversion S; subst. eapply H; eauto.
    - intros t lo hi l _ E. cbn in E. injection E as <-. cbn [at_term]. now rewrite is_node_find.
    - intros o ts i out H lo hi l S E. destruct (proj1 (proj2 (proj2 leaves_in)) _ _ _ _ S E) as (_ & F & _).
      cbn [at_block]. destruct (within pos _ _) eqn:W; [|now rewrite (find_none _ _ _ _ F W)].
      cbn [leaves_block] in E. destruct (blk_op (BPrefix o ts i out)) as [t| |] eqn:Eo; cbn [rbind] in E |- *; try discriminate.
      change (fix go (ts : list term) : res (list leaf) := match ts with [] => Ok [] | t :: ts0 => let? a0 := leaves_term t in let? b0 := go ts0 in Ok (a0 ++ b0) end)
        with (gather leaves_term) in E.
      destruct (gather leaves_term ts) as [lt| |] eqn:Et; cbn [rbind] in E; try discriminate. injection E as <-.
      unfold is_node. cbn [find]. change (hit pos (NCommand, t)) with (covers_pos pos t). destruct (covers_pos pos t); [reflexivity|].
      inversion S as [lo' a b c hi' o' ts' i' out' Si So Sout St|]; subst.
      apply (seek_find _ (at_term pos) leaves_term pos ts lt); [|exact Et]. eapply each_ok; [exact H|]. eapply sp_terms_each; eauto.
    - intros o x r out H lo hi l S E. destruct (proj1 (proj2 (proj2 leaves_in)) _ _ _ _ S E) as (_ & F & _).
      cbn [at_block]. destruct (within pos _ _) eqn:W; [|now rewrite (find_none _ _ _ _ F W)].
      cbn [leaves_block blk_op rbind] in E |- *. destruct (leaves_arg x) as [lx| |] eqn:Ex; cbn [rbind] in E; try discriminate. injection E as <-.
      unfold is_node at 1. cbn [find]. change (hit pos (NCommand, o)) with (covers_pos pos o). destruct (covers_pos pos o); [reflexivity|].
      inversion S as [|lo' a b c hi' o' x' r' out' Sx So Sr Sout]; subst. rewrite (H _ _ _ Sx Ex). cbn [rbind]. rewrite find_app, is_node_find.
      destruct (find (hit pos) lx); reflexivity.
    - intros t bs out H lo hi l S E. assert (F := proj2 (proj2 (proj2 leaves_in)) _ _ _ _ S E). unfold tag_in in F. cbn [ex_tag] in F.
      cbn [at_expr]. unfold covers_pos. destruct (within pos _ _) eqn:W; [|now rewrite (find_none _ _ _ _ F W)].
      inversion S as [lo' m hi' t' bs' out' St Nb Sb So]; subst. cbn [leaves_expr] in E.
      apply (seek_find _ (at_block pos) leaves_block pos bs l); [|exact E]. eapply each_ok; [exact H|]. eapply sp_blocks_each; eauto.
  Qed.
End S.

(** ** The only one *)
Lemma hit_over : forall pos x, hit pos x = true <-> over pos x.
Proof. intros pos x. unfold hit, covers_pos, within, over. rewrite andb_true_iff, Nat.leb_le, Nat.ltb_lt. tauto. Qed.
Lemma order_low : forall line lo hi l, in_order line lo hi l -> Forall (leafin lo hi) l.
Proof.
  intros line lo hi l H. induction H as [|lo m hi x txt xs (a & pre & post & b & E & T & A & N & B1 & B2 & B3 & B4) H IH]; constructor.
  - subst txt. rewrite !UtfLemmas.byte_len_app in B2. apply LexProofs.ord_le in H. split; lia.
  - eapply leafin_wide; [exact IH| |apply le_n]. lia.
Qed.
Lemma over_unique : forall line pos lo hi l x y, in_order line lo hi l -> In x l -> In y l -> over pos x -> over pos y -> y = x.
Proof.
  intros line pos lo hi l x y H. induction H as [|lo m hi z txt xs S H IH]; [intros []|]. intros Ix Iy Ox Oy. assert (F := order_low _ _ _ _ H). rewrite Forall_forall in F.
  assert (Z : N.to_nat (tg_e (snd z)) <= m).
  { destruct S as (a & pre & post & b & E & T & A & N & B1 & B2 & B3 & B4). subst txt. rewrite !UtfLemmas.byte_len_app in B2. lia. }
  unfold over in *. destruct Ix as [<-|Ix], Iy as [<-|Iy]; auto.
  - exfalso. apply F in Iy. unfold leafin in Iy. lia.
  - exfalso. apply F in Ix. unfold leafin in Ix. lia.
Qed.
Lemma find_at : forall line pos ws ls, in_order line 0 (byte_len line) ws -> Permutation ws ls -> at_position ls pos (find (hit pos) ls).
Proof.
  intros line pos ws ls O P. destruct (find (hit pos) ls) as [x|] eqn:E; cbn.
  - apply find_some in E. destruct E as [I H]. apply hit_over in H. split; [exact I|]. split; [exact H|]. intros y Iy Oy.
    eapply (over_unique line pos 0 (byte_len line) ws); eauto; (eapply Permutation_in; [symmetry; exact P|]; assumption).
  - intros y Iy Oy. apply hit_over in Oy. now rewrite (List.find_none _ _ E y Iy) in Oy.
Qed.

Lemma at_expression : forall k line r e, expression k line = POk r e -> Forall plain_op (expr_ops e) -> forall pos,
  exists ls x, leaves_expr e = Ok ls /\ at_expr pos e = Ok x /\ at_position ls pos x.
Proof.
  intros k line r e H F pos. assert (O := LexProofs.expression_words _ _ _ _ H). destruct (expr_leaves_ok _ _ O F) as (ls & ws & El & P & Ow).
  exists ls, (find (hit pos) ls). split; [exact El|]. split; [|eapply find_at; eauto].
  eapply (proj2 (proj2 (proj2 (at_all line pos)))); [|exact El]. eapply ParseMainProofs.expression_spans; eauto.
Qed.

Lemma definition_expr_spans : forall k line r d, definition_impl k line = POk r d -> exists lo hi, sp_expr line lo hi (snd d).
Proof.
  intros k line r d H. unfold definition_impl, def_impl in H.
  destruct (def_op k line line) as [i1 nm| | |] eqn:E1; cbn [pbind] in H; try discriminate. destruct (LexProofs.def_op_lex _ _ _ _ E1) as [H1 _].
  destruct (ws (fun i => popt i (op_ident k line i)) i1) as [i2 ity| | |] eqn:E2; cbn [pbind] in H; try discriminate.
  destruct (def_params k line i2) as [i3 ps| | |] eqn:E3; cbn [pbind] in H; try discriminate.
  assert (S2 : ParseSpanProofs.suf i2 line).
  { unfold ws in E2. assert (G := ParseSpanProofs.op_ident_good k line (skip i1)). assert (Sk := ParseSpanProofs.suf_skip i1).
    assert (Hs : ParseSpanProofs.suf (skip i1) line) by exact (ParseSpanProofs.suf_trans _ _ _ Sk H1). specialize (G Hs).
    destruct (op_ident k line (skip i1)) as [j t| | |]; cbn in E2; try discriminate; injection E2 as <- <-.
    - destruct G as (Sx & _). exact (ParseSpanProofs.suf_trans _ _ _ (ParseSpanProofs.suf_skip _) (ParseSpanProofs.suf_trans _ _ _ Sx Hs)).
    - exact (ParseSpanProofs.suf_trans _ _ _ (ParseSpanProofs.suf_skip _) Hs). }
  assert (S3 : ParseSpanProofs.suf i3 line).
  { unfold def_params in E3. assert (G3 := ParseSpanProofs.pchar_good 40 i2). destruct (pchar 40 i2) as [j u| | |]; cbn [pbind] in E3; try discriminate. destruct G3 as (Sx & _ & _).
    assert (Hj : ParseSpanProofs.suf j line) by exact (ParseSpanProofs.suf_trans _ _ _ Sx S2).
    assert (M := ParseMainProofs.many_params_good k line (S (length j)) j [] Hj ltac:(lia)).
    destruct (many_params k line (S (length j)) j []) as [j2 ps2| | |]; cbn [pbind] in E3; try discriminate. destruct M as [M1 _].
    assert (G4 := ParseSpanProofs.pchar_good 41 j2). destruct (pchar 41 j2) as [j3 u3| | |]; cbn [pbind] in E3; try discriminate. destruct G4 as (Sy & _ & _).
    destruct (repeats [] ps2); [discriminate|]. injection E3 as <- <-. exact (ParseSpanProofs.suf_trans _ _ _ Sy (ParseSpanProofs.suf_trans _ _ _ M1 Hj)). }
  unfold no_trailing, ws in H. assert (Ss := ParseSpanProofs.suf_skip i3). assert (Hs : ParseSpanProofs.suf (skip i3) line) by exact (ParseSpanProofs.suf_trans _ _ _ Ss S3).
  assert (G4 := ParseSpanProofs.pchar_good 123 (skip i3)). destruct (pchar 123 (skip i3)) as [j u| | |]; cbn [pbind] in H; try discriminate. destruct G4 as (S4 & _ & _).
  assert (Hj : ParseSpanProofs.suf j line) by exact (ParseSpanProofs.suf_trans _ _ _ S4 Hs). assert (Hk : ParseSpanProofs.suf (skip j) line) by exact (ParseSpanProofs.suf_trans _ _ _ (ParseSpanProofs.suf_skip _) Hj).
  assert (G5 := ParseMainProofs.expr_p_good k line (skip j) Hk). destruct (expr_p k line (skip j)) as [j5 e| | |]; cbn [pbind] in H; try discriminate.
  destruct G5 as (_ & _ & (O5 & _)).
  destruct (pchar 125 (skip j5)) as [j6 u6| | |]; cbn [pbind] in H; try discriminate. destruct (blank k (skip j6)); [|discriminate]. cbn [pbind] in H. injection H as <- <-.
  cbn [snd]. eauto.
Qed.

Lemma at_params_find : forall pos ps, at_params pos ps = find (hit pos) (map (fun p : aparam => (NParameter, fst p)) ps).
Proof.
  intros pos ps. induction ps as [|p ps IH]; [reflexivity|]. cbn [at_params map find]. unfold is_node. change (hit pos (NParameter, fst p)) with (covers_pos pos (fst p)). destruct (covers_pos pos (fst p)); auto.
Qed.
Lemma at_definition : forall k line r d, definition_impl k line = POk r d -> Forall plain_op (expr_ops (snd d)) -> forall pos,
  exists ls x, leaves_def line d = Ok ls /\ at_def line pos d = Ok x /\
    if Nat.ltb pos (N.to_nat (tg_s (fst (fst (fst d))))) then x = Some (NCommand, def_word line (fst (fst (fst d)))) else at_position ls pos x.
Proof.
  intros k line r d H F pos. assert (O := LexProofs.definition_words _ _ _ _ H). destruct (def_leaves_ok _ _ O F) as (ls & ws & El & P & Ow).
  destruct (definition_expr_spans _ _ _ _ H) as (lo & hi & Sp). destruct d as [[[nm ity] ps] e]. cbn [fst snd] in *.
  exists ls. unfold leaves_def in El. destruct (leaves_expr e) as [le| |] eqn:Ee; cbn [rbind] in El; try discriminate.
  assert (At := proj2 (proj2 (proj2 (at_all line pos))) e _ _ _ Sp Ee).
  unfold leaves_def, at_def. rewrite Ee. cbn [rbind].
  destruct (Nat.ltb_spec pos (N.to_nat (tg_s nm))) as [L|L].
  - eexists. split; [exact El|]. split; reflexivity.
  - set (tys := match ity with Some t => [(NType, t)] | None => [] end) in *.
    set (pws := map (fun p : aparam => (NParameter, fst p)) ps) in *.
    set (ls' := (NCommand, nm) :: tys ++ le ++ pws).
    exists (find (hit pos) ls'). split; [exact El|]. split.
    + subst ls'. cbn [find]. unfold is_node at 1. change (hit pos (NCommand, nm)) with (covers_pos pos nm). destruct (covers_pos pos nm); [reflexivity|].
      assert (Y : (let? a := at_expr pos e in match a with Some x => Ok (Some x) | None => Ok (at_params pos ps) end) = Ok (find (hit pos) (le ++ pws))).
      { rewrite At. cbn [rbind]. rewrite find_app, at_params_find. fold pws. destruct (find (hit pos) le); reflexivity. }
      subst tys. destruct ity as [ot|]; [|exact Y]. cbn [app find]. unfold is_node. change (hit pos (NType, ot)) with (covers_pos pos ot).
      destruct (covers_pos pos ot); [reflexivity|exact Y].
    + injection El as <-.
      assert (X : at_position ((NCommand, def_word line nm) :: ls') pos (find (hit pos) ((NCommand, def_word line nm) :: ls'))).
      { eapply find_at; [exact Ow|]. eapply Permutation_trans; [exact P|]. subst ls'. cbn [app]. do 2 constructor. apply Permutation_app_head. apply Permutation_app_comm. }
      assert (Hd : hit pos (NCommand, def_word line nm) = false).
      { destruct (hit pos (NCommand, def_word line nm)) eqn:E; [|reflexivity]. apply hit_over in E. unfold over, def_word in E. cbn [snd] in E.
        rewrite ParseSpanProofs.mk_e in E. lia. }
      cbn [find] in X. rewrite Hd in X.
      assert (Pm : forall y, In y ((NCommand, def_word line nm) :: ls') <-> In y ([(NCommand, def_word line nm); (NCommand, nm)] ++ tys ++ pws ++ le)).
      { intros y. subst ls'. cbn [app In]. rewrite !in_app_iff. tauto. }
      unfold at_position in *. destruct (find (hit pos) ls') as [x|].
      * destruct X as (X1 & X2 & X3). split; [now apply Pm|]. split; [exact X2|]. intros y Iy. apply X3. now apply Pm.
      * intros y Iy. apply X. now apply Pm.
Qed.
