(** Proofs for C80. *)
From Coq Require Import String List ZArith NArith Bool Arith Lia.
From Verif Require Import Model.Base Model.Value Model.Ast Model.Registry Model.AstGraph Model.Locals Model.Annotate Spec.RegistrySpec Spec.AstGraphSpec Spec.AnnotateSpec
  Proofs.AstFlatProofs Proofs.AstExpandProofs Proofs.AstLookupProofs Proofs.LocalsGraphProofs.
Import ListNotations.

Lemma fmt_colon : forall t, fmt_ty t = colon t.
Proof. intros [[]|]; reflexivity. Qed.

Section G.
  Variable g : graph.
  Hypothesis G : good g.
  Variables ins outs : nat -> option ty.
  Variable v : bool.
  Notation fmt := (fmt g ins outs v).
  Notation fmt_op := (fmt_op g ins outs v).
  Notation noted := (noted g ins outs v).
  Notation noted_blocks := (noted_blocks g ins outs v).
  Notation noted_block := (noted_block g ins outs v).
  Notation noted_terms := (noted_terms g ins outs v).
  Notation extra := (extra v).

  Lemma extra_fmt : forall t, (if v then fmt_ty t else []) = extra t.
  Proof. intros t. unfold AnnotateSpec.extra. now rewrite fmt_colon. Qed.

  Lemma impl_some : forall o t c, graph_impl g o t = Some c -> exists k, In (k, c) (keyed g o) /\ match k with Some t' => ty_eqb t' t = true | None => True end.
  Proof.
    intros o t c H. rewrite graph_impl_keyed in H. destruct (find (ty_match t) (rev (keyed g o))) as [[k c']|] eqn:F.
    - injection H as <-. apply find_some in F. destruct F as [I M]. apply in_rev in I. exists k. split; [exact I|]. unfold ty_match in M. cbn in M. now destruct k.
    - destruct (find none_match (keyed g o)) as [[k c']|] eqn:N; [|discriminate]. injection H as <-. apply find_some in N. destruct N as [I M]. exists k. split; [exact I|]. now destruct k.
  Qed.
  Lemma impl_none : forall o t, graph_impl g o t = None -> forall k c, In (k, c) (keyed g o) -> ~ match k with Some t' => ty_eqb t' t = true | None => True end.
  Proof.
    intros o t H k c I M. rewrite graph_impl_keyed in H. destruct (find (ty_match t) (rev (keyed g o))) as [p|] eqn:F; [discriminate|].
    destruct (find none_match (keyed g o)) as [p|] eqn:N; [discriminate|]. destruct k as [t'|].
    - apply (find_none _ _ F (Some t', c)) in I || (assert (J : In (Some t', c) (rev (keyed g o))) by (now apply in_rev in I); apply (find_none _ _ F) in J; unfold ty_match in J; cbn in J; congruence).
    - apply (find_none _ _ N) in I. discriminate.
  Qed.

  Definition shown_at (n : nat) (a : arg) : Prop := exists x k, noted n a x /\ forall fuel, k <= fuel -> fmt fuel n = Ok x.
  Lemma terms_ok : forall ns ts, Forall2 (shows_term g) ns ts -> (forall n a, In n ns -> In (TArg a) ts -> shows_term g n (TArg a) -> shown_at n a) ->
    exists s xs k, noted_terms ns ts s /\ s = flat_map (fun x => lit " " ++ x) xs /\ forall fuel, k <= fuel -> rmapM (fmt fuel) (filter (fun n => negb (is_flag g n)) ns) = Ok xs.
  Proof.
    intros ns ts F. induction F as [|n t ns ts S F IH]; intros H.
    - exists [], [], 0. split; [constructor|]. split; reflexivity.
    - destruct IH as (s & xs & k & N & E & R); [intros n' a I J; apply H; now right|]. cbn [filter]. rewrite (shows_term_flag _ _ _ S). destruct t as [a|t]; cbn [is_flag_term negb].
      + destruct (H n a (or_introl eq_refl) (or_introl eq_refl) S) as (x & k' & Nx & Rx). exists (lit " " ++ x ++ s), (x :: xs), (k + k').
        split; [now constructor|]. split; [cbn [flat_map]; rewrite E; now rewrite <- app_assoc|]. intros fuel L. cbn [rmapM]. rewrite Rx, R by lia. reflexivity.
      + exists s, xs, k. split; [now constructor|]. auto.
  Qed.

  Definition args_of (o : nat) : res (list nat) :=
    match ins o with Some t => match graph_impl g o t with Some c => get_args g c | None => Ok [] end | None => Ok [] end.
  Lemma block_ok : forall o b, shows_block g o b -> length (blk_terms b) <= 256 ->
    (forall n a, In n (children g o) -> In (TArg a) (blk_terms b) -> shows_term g n (TArg a) -> shown_at n a) ->
    exists s t args xs k, noted_block o b s /\ node g o = Some (NOp t) /\ args_of o = Ok args /\ (forall fuel, k <= fuel -> rmapM (fmt fuel) args = Ok xs) /\
      s = colon (ins o) ++ lit " " ++ tg_str t ++ extra (outs o) ++ flat_map (fun x => lit " " ++ x) xs.
  Proof.
    intros o b S L H. inversion S as [o' b' t N B F]; subst. unfold args_of.
    assert (OPEN : ~ settled g ins o -> noted_block o b (colon (ins o) ++ lit " " ++ tg_str t ++ extra (outs o))) by (intros; now apply noted_open).
    destruct (ins o) as [ti|] eqn:EI.
    - destruct (graph_impl g o ti) as [c|] eqn:EG.
      + destruct (impl_some _ _ _ EG) as (k & K & M). destruct (terms_ok _ _ F H) as (s & xs & kf & Ns & Es & R).
        assert (LC : length (children g o) = length (blk_terms b)) by (clear - F; induction F; cbn; auto).
        destruct (get_terms_spec g o c k (gd_inv G)) as [A _]; [now apply keyed_in|lia|].
        exists (colon (Some ti) ++ lit " " ++ tg_str t ++ extra (outs o) ++ s), t, (args_below g o), xs, kf.
        split; [|split; [exact N|split; [exact A|split; [exact R|now rewrite Es]]]].
        rewrite <- EI. apply noted_settled; auto. exists ti, k, c. auto.
      + exists (colon (Some ti) ++ lit " " ++ tg_str t ++ extra (outs o)), t, [], [], 0.
        split; [|split; [exact N|split; [reflexivity|split; [reflexivity|cbn; now rewrite app_nil_r]]]].
        apply OPEN. intros (t' & k & c & E & I & M). rewrite EI in E. injection E as <-. exact (impl_none _ _ EG k c I M).
    - exists (colon None ++ lit " " ++ tg_str t ++ extra (outs o)), t, [], [], 0.
      split; [|split; [exact N|split; [reflexivity|split; [reflexivity|cbn; now rewrite app_nil_r]]]].
      apply OPEN. intros (t' & k & c & E & I & M). rewrite EI in E. discriminate.
  Qed.

  Lemma blocks_ok : forall e te, node g e = Some (NExpr te) -> forall os bs l, children g e = l ++ os -> Forall2 (shows_block g) os bs ->
    (forall b, In b bs -> length (blk_terms b) <= 256) ->
    (forall o b n a, In o os -> In b bs -> In n (children g o) -> In (TArg a) (blk_terms b) -> shows_term g n (TArg a) -> shown_at n a) ->
    match os with [] => True | o :: _ => exists s k, noted_blocks os bs s /\ forall fuel, k <= fuel -> fmt_op fuel o = Ok s end.
  Proof.
    intros e te Ne. induction os as [|o os IH]; intros bs l C F L H; [exact I|]. inversion F as [|? b ? bs' Sb F']; subst.
    destruct (block_ok o b Sb) as (s & t & args & xs & k & Nb & No & A & R & E); [apply L; now left|intros n a I J; apply (H o b); auto; now left|].
    pose proof (@op_next_ok g G _ _ _ _ _ Ne C) as X.
    specialize (IH bs' (l ++ [o])). rewrite <- app_assoc in IH. specialize (IH C F').
    assert (IH' : match os with [] => True | o :: _ => exists s k, noted_blocks os bs' s /\ forall fuel, k <= fuel -> fmt_op fuel o = Ok s end).
    { apply IH; [intros; apply L; now right|]. intros o' b' n a I J. apply (H o' b'); now right. }
    clear IH. destruct os as [|o' os].
    - inversion F'; subst. eexists _, (S k). split; [constructor; exact Nb|]. intros fuel Lf. destruct fuel as [|fuel]; [lia|]. cbn [Annotate.fmt_op].
      rewrite No. cbn [rbind]. unfold args_of in A. rewrite A. cbn [rbind]. rewrite R by lia. cbn [rbind]. rewrite X. cbn [rbind hd_error]. rewrite fmt_colon, extra_fmt, app_nil_r. reflexivity.
    - destruct IH' as (r & k' & Nr & Rr). eexists _, (S (k + k')). split; [constructor; [exact Nb|exact Nr]|]. intros fuel Lf. destruct fuel as [|fuel]; [lia|]. cbn [Annotate.fmt_op].
      rewrite No. cbn [rbind]. unfold args_of in A. rewrite A. cbn [rbind]. rewrite R by lia. cbn [rbind]. rewrite X. cbn [rbind hd_error]. rewrite Rr by lia. cbn [rbind].
      rewrite fmt_colon, extra_fmt, E. now rewrite <- !app_assoc.
  Qed.

  Lemma arg_ok : forall d n a, length (g_nodes g) - n <= d -> shows_term g n (TArg a) -> whole a -> shown_at n a.
  Proof.
    induction d as [|d IH]; intros n a D Sh W.
    - assert (X : exists x, node g n = Some x) by (inversion Sh; subst; eauto; match goal with H : shows _ _ _ |- _ => inversion H; subst; eauto end).
      destruct X as (x & X). unfold node in X. assert (n < length (g_nodes g)) by (apply nth_error_Some; congruence). lia.
    - unfold shown_at. inversion Sh; subst; try (match goal with H : node g n = Some _ |- _ => rename H into N end).
      + destruct (tg_str t) as [|c cs] eqn:E.
        * exists (lit "''" ++ extra (outs n)), 1. split; [now constructor|]. intros [|fuel] L; [lia|]. cbn [Annotate.fmt]. rewrite N, E, extra_fmt. reflexivity.
        * exists (tg_str t ++ extra (outs n)), 1. split; [constructor; congruence|]. intros [|fuel] L; [lia|]. cbn [Annotate.fmt]. rewrite N, E, extra_fmt. reflexivity.
      + eexists _, 1. split; [constructor|]. intros [|fuel] L; [lia|]. cbn [Annotate.fmt]. rewrite N, extra_fmt. reflexivity.
      + eexists _, 1. split; [constructor|]. intros [|fuel] L; [lia|]. cbn [Annotate.fmt]. rewrite N, fmt_colon. reflexivity.
      + eexists _, 1. split; [constructor|]. intros [|fuel] L; [lia|]. cbn [Annotate.fmt]. rewrite N, fmt_colon. reflexivity.
      + match goal with H : shows _ _ _ |- _ => inversion H as [n' e' N F]; subst end. inversion W as [a' Wl|e' W1 W2]; subst; [now destruct (Wl e)|].
        pose proof (blocks_ok n _ N (children g n) (ex_blocks e) [] eq_refl F (fun b I => proj1 (W2 b I))) as B.
        assert (B' : match children g n with [] => True | o :: _ => exists s k, noted_blocks (children g n) (ex_blocks e) s /\ forall fuel, k <= fuel -> fmt_op fuel o = Ok s end).
        { apply B. intros o b m a I J K M Sm. pose proof (@child_lt g G _ _ I). pose proof (@child_lt g G _ _ K). unfold AstFlatProofs.sz in *. apply IH; [lia|exact Sm|]. exact (proj2 (W2 b J) a M). }
        clear B. pose proof (@first_op_ok g G _ _ N) as FO. destruct (children g n) as [|o os] eqn:C; [inversion F as [Z|]; congruence|].
        destruct B' as (s & k & Nb & R). exists (lit "{" ++ s ++ lit " }" ++ colon (outs n)), (S k). split; [constructor; now rewrite C|].
        intros [|fuel] L; [lia|]. cbn [Annotate.fmt]. rewrite N, FO. cbn [rbind]. rewrite R by lia. cbn [rbind]. now rewrite fmt_colon.
  Qed.
End G.

Lemma annotated : forall s e g cs ins outs v n a, init s e = Ok (g, cs) -> shows_term g n (TArg a) -> whole a ->
  exists text k, noted g ins outs v n a text /\ forall fuel, k <= fuel -> fmt g ins outs v fuel n = Ok text.
Proof. intros s e g cs ins outs v n a H S W. exact (arg_ok g (@init_good _ _ _ _ H) ins outs v _ n a (le_n _) S W). Qed.

Scheme noted_min := Minimality for noted Sort Prop with blocks_min := Minimality for noted_blocks Sort Prop
  with block_min := Minimality for noted_block Sort Prop with terms_min := Minimality for noted_terms Sort Prop.
Combined Scheme noted_all from noted_min, blocks_min, block_min, terms_min.
Lemma noted_once : forall g ins outs v,
  (forall n a s, noted g ins outs v n a s -> forall s', noted g ins outs v n a s' -> s' = s) /\
  (forall ns bs s, noted_blocks g ins outs v ns bs s -> forall s', noted_blocks g ins outs v ns bs s' -> s' = s) /\
  (forall n b s, noted_block g ins outs v n b s -> forall s', noted_block g ins outs v n b s' -> s' = s) /\
  (forall ns ts s, noted_terms g ins outs v ns ts s -> forall s', noted_terms g ins outs v ns ts s' -> s' = s).
Proof.
  intros g ins outs v. apply noted_all.
  - intros n t E s' H. inversion H; subst; congruence.
  - intros n t E s' H. inversion H; subst; congruence.
  - intros n z t s' H. inversion H; subst; reflexivity.
  - intros n c t s' H. inversion H; subst; reflexivity.
  - intros n t s' H. inversion H; subst; reflexivity.
  - intros n e s _ IH s' H. inversion H as [| | | | |? ? s0 H0]; subst. now rewrite (IH _ H0).
  - intros o b s _ IH s' H. inversion H as [? ? ? H0|? ? ? ? ? ? H0 H1]; subst; [auto|]. inversion H1.
  - intros o b s os bs r _ IH1 Hr IH2 s' H. inversion H as [? ? ? H0|? ? ? ? ? ? H0 H1]; subst; [inversion Hr|]. now rewrite (IH1 _ H0), (IH2 _ H1).
  - intros o b t s E S _ IH s' H. inversion H as [? ? t' s0 E' S' H0|? ? t' E' S']; subst; [|contradiction]. rewrite (IH _ H0). congruence.
  - intros o b t E S s' H. inversion H as [? ? t' s0 E' S' H0|? ? t' E' S']; subst; [contradiction|]. congruence.
  - intros s' H. now inversion H.
  - intros n t ns ts s _ IH s' H. inversion H; subst; auto.
  - intros n a x ns ts s _ IH1 _ IH2 s' H. inversion H as [| |? ? x0 ? ? s0 H0 H1]; subst. now rewrite (IH1 _ H0), (IH2 _ H1).
Qed.
Lemma annotated_as : forall s e g cs ins outs v n a, init s e = Ok (g, cs) -> shows_term g n (TArg a) -> whole a ->
  exists text, (forall text', noted g ins outs v n a text' <-> text' = text) /\ exists k, forall fuel, k <= fuel -> fmt g ins outs v fuel n = Ok text.
Proof.
  intros s e g cs ins outs v n a H S W. destruct (annotated _ _ _ _ ins outs v _ _ H S W) as (text & k & N & R). exists text. split; [|eauto].
  intros text'. split; [intros N'; exact (proj1 (noted_once _ _ _ _) _ _ _ N _ N')|intros ->; exact N].
Qed.
