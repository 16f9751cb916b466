(** The range of a block holds all of its words, its types included. *)
From Coq Require Import String List ZArith NArith Bool Arith Lia.
From Verif Require Import Model.Base Model.Utf Model.Ast Model.Parse Model.Highlight Spec.ParseSpec Spec.LexSpec Proofs.AstInd Proofs.HighlightProofs Proofs.NodeAtProofs.
From Verif Require Proofs.ParseSpanProofs Proofs.ParseMainProofs.
Import ListNotations.

Ltac each := repeat (apply Forall_cons; [unfold leafin, marked_part, tag_part in *; cbn [fst snd] in *; lia|]); try apply Forall_nil.
Section S.
Variable line : str.
Notation spa := (sp_arg line). Notation spt := (sp_term line). Notation spb := (sp_block line). Notation spe := (sp_expr line).

Definition wide (b : block) : Prop := spans (block_range b) (block_parts b) /\ Forall (leafin (fst (block_range b)) (snd (block_range b))) (block_words b).
Definition w_arg (a : arg) : Prop := forall lo hi, spa lo hi a -> Forall plain_op (arg_ops a) -> tag_in (arg_tag a) (arg_words a) /\ Forall wide (arg_blocks a).
Definition w_term (t : term) : Prop := forall lo hi, spt lo hi t -> Forall plain_op (term_ops t) -> tag_in (term_tag t) (term_words t) /\ Forall wide (term_blocks t).
Definition w_block (b : block) : Prop := forall lo hi, spb lo hi b -> Forall plain_op (block_ops b) ->
  lo <= hi /\ Forall (leafin lo hi) (block_words b) /\ wide b /\ Forall wide (inner_blocks b).
Definition w_expr (e : expr) : Prop := forall lo hi, spe lo hi e -> Forall plain_op (expr_ops e) -> tag_in (ex_tag e) (expr_words e) /\ Forall wide (expr_blocks e).

Lemma terms_w : forall ts, Forall w_term ts -> forall lo hi, sp_terms line lo hi ts -> Forall plain_op (flat_map term_ops ts) ->
  lo <= hi /\ Forall (leafin lo (match rev ts with [] => hi | t :: _ => N.to_nat (tg_e (term_tag t)) end)) (flat_map term_words ts) /\
  Forall (fun t => lo <= N.to_nat (tg_s (term_tag t)) /\ N.to_nat (tg_e (term_tag t)) <= match rev ts with [] => hi | t :: _ => N.to_nat (tg_e (term_tag t)) end) ts /\
  match rev ts with [] => True | t :: _ => lo <= N.to_nat (tg_e (term_tag t)) <= hi end /\ Forall wide (flat_map term_blocks ts).
Proof.
  induction ts as [|t ts IH] using rev_ind; intros F lo hi H E.
  - inversion H as [? ? L|? ? ? ? ? ? ? X]; [|destruct ts; discriminate]. cbn. auto.
  - apply Forall_app in F. destruct F as [F Ft]. apply Forall_cons_iff in Ft. destruct Ft as [Ft _].
    inversion H as [? ? L|lo' m hi' ts' t' H1 H2]; subst; [destruct ts; discriminate|]. snoc_inj.
    rewrite flat_map_app in E. apply Forall_app in E. destruct E as (Ea & Eb). cbn [flat_map] in Eb. rewrite app_nil_r in Eb.
    destruct (IH F _ _ H1 Ea) as (L & Fa & Fp & Lm & W). assert (T := sp_term_tag _ _ _ _ H2). destruct (Ft _ _ H2 Eb) as (Fb & Wb).
    rewrite !flat_map_app, rev_app_distr. cbn [rev app flat_map]. rewrite !app_nil_r.
    split; [lia|]. split; [|split; [|split; [lia|apply Forall_app; auto]]].
    + apply Forall_app. split; eapply leafin_wide; [exact Fa|lia| |exact Fb|lia|lia]. destruct (rev ts); lia.
    + apply Forall_app. split; [|constructor; [lia|constructor]]. eapply Forall_impl; [|exact Fp]. cbn. intros x (X & Y). split; [lia|]. destruct (rev ts); lia.
Qed.
Lemma blocks_w : forall bs, Forall w_block bs -> forall lo hi, sp_blocks line lo hi bs -> Forall plain_op (flat_map block_ops bs) ->
  lo <= hi /\ Forall (leafin lo hi) (flat_map block_words bs) /\ Forall wide bs /\ Forall wide (flat_map inner_blocks bs).
Proof.
  induction bs as [|b bs IH] using rev_ind; intros F lo hi H E.
  - inversion H as [? ? L|? ? ? ? ? ? ? X]; [|destruct bs; discriminate]. cbn. auto.
  - apply Forall_app in F. destruct F as [F Ft]. apply Forall_cons_iff in Ft. destruct Ft as [Ft _].
    inversion H as [? ? L|lo' m hi' ts' t' H1 H2]; subst; [destruct bs; discriminate|]. snoc_inj.
    rewrite flat_map_app in E. apply Forall_app in E. destruct E as (Ea & Eb). cbn [flat_map] in Eb. rewrite app_nil_r in Eb.
    destruct (IH F _ _ H1 Ea) as (L & Fa & W & V). destruct (Ft _ _ H2 Eb) as (Lb & Fb & Wb & Vb).
    rewrite !flat_map_app. cbn [flat_map]. rewrite !app_nil_r. split; [lia|]. split; [|split; apply Forall_app; auto].
    apply Forall_app. split; eapply leafin_wide; eauto; lia.
Qed.
Lemma words_w : (forall a, w_arg a) /\ (forall t, w_term t) /\ (forall b, w_block b) /\ (forall e, w_expr e).
Proof.
  apply tree_all.
  1-4: intros; intros lo hi _ _; split; [apply one_in|constructor].
  - intros e H lo hi S E. inversion S; subst. eapply H; eauto.
  - intros a H lo hi S E. inversion S; subst. eapply H; eauto.
  - intros t lo hi _ _. split; [apply one_in|constructor].
  - intros o ts i out H lo hi S E. inversion S as [lo' a b c hi' o' ts' i' out' Si So Sout St|]; subst.
    cbn [block_ops] in E. apply Forall_cons_iff in E. destruct E as (Eo & Et). destruct o as [t|]; [|destruct Eo]. cbn [sp_op] in So. unfold sp_tag in So.
    destruct (terms_w ts H _ _ St Et) as (L & Fw & Fp & Lt & W).
    assert (Lo : lo <= a) by (eapply sp_opt_le; eauto). assert (Lout : b <= c) by (eapply sp_opt_le; eauto).
    assert (R : block_range (BPrefix (OpSingle t) ts i out) = (match i with Some u => N.to_nat (tg_s u) - 1 | None => N.to_nat (tg_s t) end,
        match rev ts with [] => match out with Some u => N.to_nat (tg_e u) | None => N.to_nat (tg_e t) end | u :: _ => N.to_nat (tg_e (term_tag u)) end)).
    { cbn [block_range op_range fst snd]. f_equal. destruct (rev ts) as [|[x|x] r]; reflexivity. }
    assert (Z : ts = [] \/ exists u r, rev ts = u :: r /\ In u ts).
    { destruct (rev ts) as [|u r] eqn:V; [left; apply (f_equal (@rev _)) in V; now rewrite rev_involutive in V|]. right. exists u, r. split; [auto|]. apply in_rev. rewrite V. now left. }
    split; [lia|]. split; [|split; [split|exact W]].
    + cbn [block_words op_words]. apply Forall_app. split; [destruct i as [u|]; cbn in *; [unfold sp_tag in Si; each|constructor]|].
      apply Forall_app. split; [each|]. apply Forall_app.
      split; [destruct out as [u|]; cbn in *; [unfold sp_tag in Sout; each|constructor]|].
      eapply leafin_wide; [exact Fw|lia|]. destruct (rev ts); lia.
    + rewrite R. unfold spans. cbn [fst snd block_parts]. destruct i as [ui|]; cbn [sp_opt] in Si; unfold sp_tag in Si.
      all: destruct out as [uo|]; cbn [sp_opt] in Sout; unfold sp_tag in Sout.
      all: destruct Z as [->|(u & r & V & J)]; [cbn; split; [each|]; auto 10|]; rewrite V in *.
      all: assert (J2 : In (N.to_nat (tg_e (term_tag u))) (map snd (map (fun t0 : term => match t0 with TArg a0 => tag_part (arg_tag a0) | TFlag t1 => tag_part t1 end) ts)))
             by (rewrite map_map; apply in_map_iff; exists u; split; [destruct u; reflexivity|exact J]).
      all: assert (P2 : forall s, s <= c -> Forall (fun p => s <= fst p /\ snd p <= N.to_nat (tg_e (term_tag u)))
             (map (fun t0 : term => match t0 with TArg a0 => tag_part (arg_tag a0) | TFlag t1 => tag_part t1 end) ts))
             by (intros s LS; apply Forall_forall; intros p K; apply in_map_iff in K; destruct K as (y & <- & K); rewrite Forall_forall in Fp; specialize (Fp y K); destruct y; cbn in *; lia).
      all: cbn [app]; split; [each; apply P2; lia|]; cbn [map fst snd tag_part marked_part]; split; [now left|]; repeat (first [exact J2|right]).
    + rewrite R. cbn [fst snd block_words op_words]. destruct i as [ui|]; cbn [sp_opt] in Si; unfold sp_tag in Si.
      all: destruct out as [uo|]; cbn [sp_opt] in Sout; unfold sp_tag in Sout.
      all: destruct Z as [->|(u & r & V & J)]; [cbn; each|]; rewrite V in *; cbn [ty_words app].
      all: each; eapply leafin_wide; [exact Fw|lia|lia].
  - intros o x r out H lo hi S E. inversion S as [|lo' a b c hi' o' x' r' out' Sx So Sr Sout]; subst. cbn [block_ops] in E.
    apply Forall_cons_iff in E. destruct E as (_ & E). destruct (H _ _ Sx E) as (Fx & Wx). assert (Tx := sp_arg_tag _ _ _ _ Sx). unfold sp_tag in So, Sr.
    assert (Hs : fst (block_range (BDot o x r out)) <= N.to_nat (tg_s (arg_tag x))) by (cbn [block_range fst]; destruct x; cbn [arg_tag]; lia).
    assert (Ho := sp_opt_le _ _ _ _ Sout).
    split; [lia|]. split; [|split; [split|exact Wx]].
    + cbn [block_words]. apply Forall_app. split; [eapply leafin_wide; [exact Fx|lia|lia]|].
      destruct out as [u|]; cbn in *; [unfold sp_tag in Sout|]; each.
    + unfold spans. cbn [block_range fst snd block_parts]. destruct out as [u|]; cbn in Sout; [unfold sp_tag in Sout|].
      all: split; [repeat (apply Forall_cons; [destruct x; cbn in *; lia|]); apply Forall_nil|]; cbn [map fst snd tag_part marked_part].
      all: split; [left; destruct x; reflexivity|cbn; auto 10].
    + cbn [block_words]. apply Forall_app. split; [eapply leafin_wide; [exact Fx|exact Hs|]|].
      * cbn [block_range snd]. destruct out as [u|]; cbn in Sout; [unfold sp_tag in Sout|]; lia.
      * cbn [block_range fst snd] in *. destruct out as [u|]; cbn [sp_opt] in Sout; [unfold sp_tag in Sout|]; cbn [app ty_words]; each.
  - intros t bs out H lo hi S E. inversion S as [lo' m hi' t' bs' out' St Nb Sb So]; subst. cbn [expr_ops] in E.
    destruct (blocks_w bs H _ _ Sb E) as (L & F & W & V). assert (L2 := sp_opt_le _ _ _ _ So). cbn [expr_words expr_blocks ex_tag]. unfold tag_in. cbn [ex_tag].
    split; [apply Forall_app; split; [eapply leafin_wide; [exact F|lia|lia]|]|apply Forall_app; auto].
    destruct out as [u|]; cbn in *; [unfold sp_tag in So; each|constructor].
Qed.
End S.
Lemma expression_blocks : forall k line r e, expression k line = POk r e -> Forall plain_op (expr_ops e) ->
  Forall (fun b => spans (block_range b) (block_parts b) /\
                   Forall (fun x => fst (block_range b) <= N.to_nat (tg_s (snd x)) /\ N.to_nat (tg_e (snd x)) <= snd (block_range b)) (block_words b)) (expr_blocks e).
Proof.
  intros k line r e H F. assert (S := ParseMainProofs.expression_spans _ _ _ _ H). exact (proj2 (proj2 (proj2 (proj2 (words_w line))) e _ _ S F)).
Qed.
