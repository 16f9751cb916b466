(** The letters of a program are those of its tree. *)
From Coq Require Import String List ZArith NArith Bool Arith Lia.
From Verif Require Import Model.Base Model.Utf Model.Ast Model.Parse Spec.ParseSpec Spec.LooseSpec Proofs.LooseProofs.
Import ListNotations.

Scheme la_ind := Induction for l_arg Sort Prop with lt_ind := Induction for l_term Sort Prop with lts_ind := Induction for l_terms Sort Prop
  with lb_ind := Induction for l_block Sort Prop with lbs_ind := Induction for l_blocks Sort Prop with lr_ind := Induction for l_rest Sort Prop.
Combined Scheme loose_ind from la_ind, lt_ind, lts_ind, lb_ind, lbs_ind, lr_ind.

Section Letters.
  Variable k : lang.
  Hypothesis K : sane k.
  Notation L := (letters k).

  Lemma L_app : forall a b, L (a ++ b) = L a ++ L b.
  Proof. intros a b. apply filter_app. Qed.
  Lemma L_none : forall w, (forall c, In c w -> alnum k c = false) -> L w = [].
  Proof. induction w as [|c w IH]; intros H; [reflexivity|]. cbn. rewrite (H c (or_introl eq_refl)). apply IH. intros x X. apply H. now right. Qed.
  Lemma L_whites : forall w, whites k w -> L w = [].
  Proof. intros w H. apply L_none. intros c C. destruct (alnum k c) eqn:A; [|reflexivity]. apply (sane_alnum K) in A. specialize (H c C). destruct A. congruence. Qed.
  Lemma L_spaces : forall w, spaces w -> L w = [].
  Proof. intros w H. apply L_whites. intros c C. apply (sane_white K). now apply H. Qed.
  Lemma L_mark : forall c, In c marks -> alnum k c = false.
  Proof. intros c C. destruct (alnum k c) eqn:A; [|reflexivity]. apply (sane_alnum K) in A. destruct A as (_ & A). now destruct (A C). Qed.
  Lemma L_marks : forall w, forallb (fun c => existsb (N.eqb c) marks) w = true -> L w = [].
  Proof.
    intros w H. apply L_none. intros c C. apply L_mark. pose proof (proj1 (forallb_forall _ _) H c C) as X. apply existsb_exists in X. destruct X as (x & X & Y). apply N.eqb_eq in Y. now subst.
  Qed.
  Lemma L_cons : forall c s, In c marks -> L (c :: s) = L s.
  Proof. intros c s C. cbn. now rewrite (L_mark c C). Qed.
  Lemma L_ty : forall o s, w_ty k o s -> L s = L (t_opt o).
  Proof. intros [t|] s H; cbn in H; [destruct H as (_ & ->)|subst; reflexivity]. apply L_cons. cbn; tauto. Qed.
  Lemma L_quotes : forall t s, in_quotes t s -> L s = L t.
  Proof.
    intros t s (q & Q & _ & ->). assert (M : In q marks) by (cbn in Q; destruct Q as [<-|[<-|[]]]; cbn; tauto). rewrite L_cons, L_app by exact M.
    cbn. rewrite (L_mark q M). apply app_nil_r.
  Qed.
  Lemma L_word : forall t s, l_word k t s -> L s = L (tg_str t).
  Proof. intros t s [(_ & ->)|H]; [reflexivity|now apply L_quotes]. Qed.
  Lemma L_path : forall cs s, w_path k cs s -> L s = L (concat (map (@tg_str) cs)).
  Proof.
    intros cs s H. induction H as [a b _ _|a cs s _ _ IH]; cbn [map concat]; rewrite ?app_nil_r, !L_app, (L_marks (lit "/")) by reflexivity; cbn [app]; [reflexivity|now rewrite IH].
  Qed.
  Lemma L_op : forall o s, w_op k o s -> L s = L (t_op o).
  Proof. intros [t|cs i r] s H; cbn in H; [destruct H as (-> & _); reflexivity|destruct H as (_ & _ & H); now apply L_path]. Qed.

  Ltac go := repeat (rewrite L_app); repeat match goal with
    | H : spaces ?w |- context[L ?w] => rewrite (L_spaces w H)
    | H : w_ty k ?o ?s |- context[L ?s] => rewrite (L_ty o s H)
    | H : L ?s = _ |- context[L ?s] => rewrite H
    | |- context[L (lit ?x)] => rewrite (L_marks (lit x)) by reflexivity
    end; cbn [app]; rewrite ?app_nil_r, ?app_assoc_reverse; reflexivity.

  Lemma all_letters :
    (forall a s, l_arg k a s -> L s = L (t_arg a)) /\ (forall t s, l_term k t s -> L s = L (t_term t)) /\
    (forall ts s, l_terms k ts s -> L s = L (concat (map t_term ts))) /\ (forall b s, l_block k b s -> L s = L (t_block b)) /\
    (forall bs s, l_blocks k bs s -> L s = L (concat (map t_block bs))) /\ (forall bs s, l_rest k bs s -> L s = L (concat (map t_block bs))).
  Proof.
    apply loose_ind; intros; cbn [t_arg t_term t_block t_expr map concat]; try reflexivity.
    - now apply L_word.
    - apply (L_cons 35). cbn; tauto.
    - apply L_cons. cbn; tauto.
    - go.
    - go.
    - rewrite app_nil_r. assert (R : L sr = L (tg_str r)) by (match goal with H : _ \/ _ |- _ => destruct H as [(_ & ->)|Q]; [reflexivity|now apply L_quotes] end). go.
    - assumption.
    - match goal with H : l_word k _ _ |- _ => apply L_word in H end. go.
    - go.
    - match goal with H : w_op k _ _ |- _ => apply L_op in H end. go.
    - go.
    - go.
    - go.
  Qed.
  Lemma param_letters : forall ps s, w_params k ps s -> L s = L (concat (map t_param ps)).
  Proof.
    assert (P : forall p s, w_param k p s -> L s = L (t_param p)) by (intros p s (_ & st & W & ->); unfold t_param; go).
    intros ps s H. induction H as [|p w s w' Sw Wp Sw'|p ps w s w' s' Sw Wp (_ & Sw') _ IH _]; [reflexivity| |]; apply P in Wp; cbn [map concat]; go.
  Qed.
End Letters.

Theorem letters_kept : forall k r e s, sane k -> expression k s = POk r e -> letters k s = letters k (t_expr e).
Proof.
  intros k r e s K H. destruct (uses_all k r e s K H) as (O & s' & w & B & W & ->). destruct (all_letters k K) as (_ & _ & _ & _ & A & _). apply A in B.
  rewrite L_app, (L_whites k K w W), B, app_nil_r. destruct e as [t bs out]. cbn in O |- *. subst out. cbn. now rewrite app_nil_r.
Qed.
Theorem def_letters_kept : forall k r n ity ps e s, sane k -> definition_impl k s = POk r (n, ity, ps, e) -> letters k s = letters k (t_def n ity ps e).
Proof.
  intros k r n ity ps e s K H. destruct (def_uses_all k r n ity ps e s K H) as [n ity ps e w0 w1 st w2 sp w3 w4 se w5 w6 _ S0 S1 T S2 P S3 S4 O B S5 W6].
  destruct (all_letters k K) as (_ & _ & _ & _ & A & _). apply A in B. apply (param_letters k K) in P. unfold t_def.
  assert (Te : t_expr e = concat (map t_block (ex_blocks e))) by (destruct e as [t bs out]; cbn in O |- *; subst out; cbn; now rewrite app_nil_r). rewrite Te.
  assert (Ts : letters k st = letters k (t_opt ity)) by (destruct ity; [destruct T as (_ & ->); reflexivity|subst; reflexivity]).
  change (lit "def ") with (lit "def" ++ lit " "). rewrite !L_app, Ts, P, B, (L_whites k K w6 W6).
  rewrite (L_spaces k K w0 S0), (L_spaces k K w1 S1), (L_spaces k K w2 S2), (L_spaces k K w3 S3), (L_spaces k K w4 S4), (L_spaces k K w5 S5).
  rewrite (L_marks k K (lit "(")), (L_marks k K (lit ")")), (L_marks k K (lit "{")), (L_marks k K (lit "}")) by reflexivity.
  rewrite (L_spaces k K (lit " ")) by (intros c [<-|[]]; cbn; tauto). cbn [app]. now rewrite ?app_nil_r, ?app_assoc_reverse.
Qed.
