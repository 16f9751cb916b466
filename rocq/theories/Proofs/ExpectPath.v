(** A path is expected only after a slash at the end of the line. *)
From Coq Require Import String List ZArith NArith Bool Arith Lia.
From Verif Require Import Model.Base Model.Utf Model.Ast Model.Parse Model.Highlight Model.Complete Model.Expect Spec.ParseSpec Spec.ExpectSpec Proofs.ParseSpanProofs Proofs.ParseMainProofs.
Import ListNotations.

Section Path.
  Variable k : lang.
  Variable line : str.

  Definition ends : Prop := exists a, line = a ++ lit "/".
  Definition fine {A} (r : xres A) : Prop :=
    match r with XOk j _ => suf j line | XErr x | XFail x => x = XPath -> ends | XFuel => True end.

  Lemma fine_bind : forall A B (r : xres A) (f : str -> A -> xres B), fine r -> (forall j a, suf j line -> fine (f j a)) -> fine (xbind r f).
  Proof. intros A B r f H K. destruct r; cbn in *; auto. Qed.
  Lemma fine_exp : forall A e (r : xres A), e <> XPath -> fine r -> fine (exp e r).
  Proof. intros A e r N H. destruct r as [j a|x|x|]; cbn in *; auto; destruct x; cbn; auto; intros; congruence. Qed.
  Lemma fine_cut : forall A (r : xres A), fine r -> fine (xcut r).
  Proof. intros A r H. destruct r; cbn in *; auto. Qed.
  Lemma fine_opt : forall A i (r : xres A), suf i line -> fine r -> fine (xopt i r).
  Proof. intros A i r S H. destruct r; cbn in *; auto. Qed.
  Lemma fine_ok : forall A i (a : A), suf i line -> fine (XOk i a).
  Proof. intros A i a H. exact H. Qed.
  Lemma fine_good : forall A n (P : str -> str -> A -> Prop) i (r : pres A), suf i line -> good n P i r -> fine (bare r).
  Proof. intros A n P i r S H. destruct r; cbn in *; try discriminate; auto. eapply suf_trans; [apply H|exact S]. Qed.
  Lemma fine_ws : forall A (p : str -> xres A) i, suf i line -> (forall i, suf i line -> fine (p i)) -> fine (x_ws p i).
  Proof.
    intros A p i S H. unfold x_ws. apply fine_bind; [apply H; exact (suf_trans _ _ _ (suf_skip i) S)|].
    intros j a J. apply fine_ok. exact (suf_trans _ _ _ (suf_skip j) J).
  Qed.

  Lemma fine_pchar : forall c i, suf i line -> fine (bare (pchar c i)).
  Proof. intros c i S. exact (fine_good _ _ _ _ _ S (pchar_good c i)). Qed.
  Lemma fine_opt_ty : forall i, suf i line -> fine (x_opt_ty k line i).
  Proof.
    intros i S. unfold x_opt_ty. apply fine_opt; [exact S|]. apply fine_bind; [now apply fine_pchar|]. intros j u J.
    apply fine_exp; [discriminate|]. apply fine_cut. exact (fine_good _ _ _ _ _ J (op_ident_good k line j J)).
  Qed.
  Lemma sep_suf : forall f i acc, suf i line -> suf (fst (sep_list k line f i acc)) line.
  Proof.
    induction f as [|f IH]; intros i acc S; cbn [sep_list]; [exact S|]. assert (G := ptag_good (lit "/") i).
    destruct (ptag (lit "/") i) as [j u| | |]; cbn [pbind]; try exact S. destruct G as (S1 & _); [discriminate|].
    assert (Hj : suf j line) by (exact (suf_trans _ _ _ S1 S)). assert (G := tmp_op_good k line j Hj).
    destruct (tmp_op k line j) as [j' t'| | |]; try exact S. apply IH. destruct G as (G & _). exact (suf_trans _ _ _ G Hj).
  Qed.
  Lemma fine_path : forall i, suf i line -> fine (x_path k line i).
  Proof.
    intros i S. unfold x_path.
    assert (X : exists i' r, (match strip (lit "/") i with Some j => (j, true) | None => (i, false) end) = (i', r) /\ suf i' line).
    { destruct (strip (lit "/") i) as [j|] eqn:E; do 2 eexists; (split; [reflexivity|]); [|exact S]. apply strip_app in E. subst.
      refine (suf_trans _ _ _ _ S). now exists (lit "/"). }
    destruct X as (i' & r & -> & S'). apply fine_bind; [exact (fine_good _ _ _ _ _ S' (tmp_op_good k line i' S'))|]. intros j t J.
    pose proof (sep_suf (length j) j [t] J) as Z. destruct (sep_list k line (length j) j [t]) as [i2 cs]. cbn [fst] in Z.
    destruct (starts 47 i2) eqn:E; [|exact Z]. destruct i2 as [|c [|d i2]]; try discriminate. cbn in E. apply N.eqb_eq in E. subst c.
    cbn. intros _. destruct Z as (p & ->). now exists p.
  Qed.
  Lemma fine_op : forall i, suf i line -> fine (x_op k line i).
  Proof.
    intros i S. unfold x_op. assert (G := spec_op_good i). destruct (spec_op i) as [j t| | |];
      [|apply fine_bind; [now apply fine_path|intros; now apply fine_ok]..]. cbn. destruct G as (G & _). exact (suf_trans _ _ _ G S).
  Qed.
  Lemma fine_infix : forall f i a, suf i line -> fine (x_infix k line f i a).
  Proof.
    induction f as [|f IH]; intros i a S; cbn [x_infix]; (destruct (starts 46 i); [|exact S]); [exact I|].
    apply fine_bind; [refine (fine_good _ _ _ _ _ S (ptag_good (lit ".") i _)); discriminate|]. intros j u J.
    apply fine_bind; [apply fine_cut; exact (fine_good _ _ _ _ _ J (rhs_good k line j J))|]. intros j2 r J2.
    apply fine_bind; [now apply fine_opt_ty|]. intros j3 o J3. now apply IH.
  Qed.

  Definition all_fine (f : nat) : Prop :=
    (forall i, suf i line -> fine (x_expr k line f i)) /\ (forall i bs, suf i line -> fine (x_pipes k line f i bs)) /\
    (forall i, suf i line -> fine (x_block k line f i)) /\ (forall i ts, suf i line -> fine (x_terms k line f i ts)) /\
    (forall i, suf i line -> fine (x_term k line f i)) /\ (forall i, suf i line -> fine (x_arg k line f i)).
  Lemma parse_fine : forall f, all_fine f.
  Proof.
    induction f as [|f (E & Pi & B & Ts & T & Ar)]; [repeat split; intros; exact I|].
    assert (SK : forall i, suf i line -> suf (skip i) line) by (intros i S; exact (suf_trans _ _ _ (suf_skip i) S)).
    assert (TL : forall i, suf i line -> suf (tl i) line) by (intros i S; exact (suf_trans _ _ _ (suf_tl i) S)).
    split; [|split; [|split; [|split; [|split]]]].
    - intros i S. cbn [x_expr]. apply fine_bind; [now apply fine_ws|]. intros j b J. apply fine_bind; [now apply Pi|]. intros j2 bs J2.
      pose proof (fine_ws _ (x_block k line f) j2 J2 B) as W. match goal with |- fine (match x_ws ?p j2 with _ => _ end) => change p with (x_block k line f) end. destruct (x_ws (x_block k line f) j2) as [j3 b3|x|x|]; [exact W|exact J2|exact J2|exact I].
    - intros i bs S. cbn [x_pipes]. destruct (starts 124 i); [|exact S]. apply fine_bind; [apply fine_ws; auto|]. intros j b J. now apply Pi.
    - intros i S. cbn [x_block]. apply fine_bind; [now apply fine_opt_ty|]. intros j it J.
      apply fine_bind; [apply fine_exp; [discriminate|apply fine_op; auto]|]. intros j2 o J2. apply fine_bind; [now apply fine_opt_ty|]. intros j3 ot J3.
      apply fine_bind; [now apply Ts|]. intros j4 ts J4. exact J4.
    - intros i ts S. cbn [x_terms]. pose proof (fine_ws _ (x_term k line f) i S T) as W. match goal with |- fine (match x_ws ?p i with _ => _ end) => change p with (x_term k line f) end. destruct (x_ws (x_term k line f) i) as [j t|x|x|]; cbn in W; auto.
      destruct (Nat.eqb _ _); [cbn; discriminate|]. now apply Ts.
    - intros i S. cbn [x_term]. destruct (strip (lit "--") i).
      + apply fine_bind; [exact (fine_good _ _ _ _ _ S (flag_good k line i S))|]. intros; now apply fine_ok.
      + apply fine_bind; [now apply Ar|]. intros j a J. apply fine_bind; [now apply fine_infix|]. intros; now apply fine_ok.
    - intros i S. cbn [x_arg]. destruct (starts 123 i).
      { destruct (empty_braces i); [cbn; discriminate|]. apply fine_bind.
        - apply fine_cut. apply fine_bind; [now apply fine_pchar|]. intros j u J. apply fine_bind; [now apply fine_ws|]. intros j2 e J2.
          apply fine_bind; [apply fine_exp; [discriminate|now apply fine_pchar]|]. intros; now apply fine_ok.
        - intros j e J. apply fine_bind; [now apply fine_opt_ty|]. intros; now apply fine_ok. }
      destruct (starts 58 i); [cbn; discriminate|]. destruct (breakon_s k i); [cbn; discriminate|].
      destruct (starts 36 i). { apply fine_bind; [exact (fine_good _ _ _ _ _ S (var_good k line i S))|]. intros; now apply fine_ok. }
      destruct (starts 35 i).
      { apply fine_bind; [apply fine_cut, fine_exp; [discriminate|]; exact (fine_good _ _ _ _ _ (TL _ S) (op_ident_good k line _ (TL _ S)))|].
        intros j c J. destruct (byte_len (tg_str c)) as [|[|n]]; [cbn; discriminate| |cbn; discriminate]. destruct (tg_str c); [cbn; discriminate|exact J]. }
      assert (G := num_good k line i S). destruct (num k line i) as [j nt| | |]; [cbn; destruct G as (G & _); exact (suf_trans _ _ _ G S)|..];
      (destruct (known_op k line i);
        [apply fine_bind; [now apply fine_ws|intros; now apply fine_ok]|apply fine_bind; [exact (fine_good _ _ _ _ _ S (ident_good k line i S))|intros; now apply fine_ok]]).
  Qed.
  Lemma fine_expr_p : forall i, suf i line -> fine (x_expr_p k line i).
  Proof. intros i S. apply parse_fine, S. Qed.
  Lemma fine_trailing : forall A (p : str -> xres A) i, fine (p i) -> fine (x_no_trailing k p i).
  Proof.
    intros A p i H. unfold x_no_trailing. apply fine_bind; [exact H|]. intros j a J. destruct (blank k j); [|cbn; discriminate].
    cbn. exists line. now rewrite app_nil_r.
  Qed.
  Lemma fine_expects : forall A (r : xres A), fine r -> expects r XPath -> ends.
  Proof. intros A r H [->| ->]; cbn in H; auto. Qed.

  Lemma def_in_good : forall i, suf i line -> good false (fun _ _ _ => True) i (ws (fun i => popt i (op_ident k line i)) i).
  Proof.
    intros i H. unfold ws. assert (S := suf_skip i). assert (G := op_ident_good k line (skip i) (suf_trans _ _ _ S H)).
    destruct (op_ident k line (skip i)) as [j t| | |]; cbn in *; auto.
    - destruct G as (S2 & _). split; [exact (suf_trans _ _ _ (suf_skip j) (suf_trans _ _ _ S2 S))|auto].
    - split; [exact (suf_trans _ _ _ (suf_skip _) S)|auto].
  Qed.
  Lemma def_params_good : forall i, suf i line -> good false (fun _ _ _ => True) i (def_params k line i).
  Proof.
    intros i H. unfold def_params. assert (G := pchar_good 40 i). destruct (pchar 40 i) as [j u| | |]; cbn [pbind]; try exact I; [|exact G]. destruct G as (S & _ & _).
    assert (G := many_params_good k line (Datatypes.S (length j)) j [] (suf_trans _ _ _ S H) ltac:(lia)). destruct (many_params k line (Datatypes.S (length j)) j []) as [j2 ps| | |]; cbn [pbind]; try exact I; [|exact G].
    destruct G as (S3 & _ & _). assert (G := pchar_good 41 j2). destruct (pchar 41 j2) as [j3 u3| | |]; cbn [pbind]; try exact I; [|exact G].
    destruct G as (S4 & _ & _). destruct (repeats [] ps); cbn; [auto|]. split; [exact (suf_trans _ _ _ S4 (suf_trans _ _ _ S3 S))|auto].
  Qed.

  Lemma fine_def : fine (x_def_impl k line line).
  Proof.
    pose proof (suf_refl line) as S. unfold x_def_impl. apply fine_bind.
    { unfold x_def_op. apply fine_bind.
      - apply fine_ws; [exact S|]. intros i J. apply fine_bind; [refine (fine_good _ _ _ _ _ J (ptag_good (lit "def ") i _)); discriminate|]. intros; now apply fine_op.
      - intros j o J. destruct (is_op o) as [[t|]|e|]; try (cbn; discriminate). exact J. }
    intros i n I0. apply fine_bind.
    { refine (fine_good _ _ _ _ _ I0 (def_in_good i I0)). }
    intros i1 it I1. apply fine_bind; [destruct it; (apply fine_exp; [discriminate|]); exact (fine_good _ _ _ _ _ I1 (def_params_good i1 I1))|].
    intros i2 ps I2. apply fine_bind; [|intros; now apply fine_ok]. apply fine_trailing. apply fine_ws; [exact I2|].
    intros j J. apply fine_bind; [now apply fine_pchar|]. intros j1 u J1. apply fine_bind; [apply fine_ws; [exact J1|exact fine_expr_p]|].
    intros j2 e J2. apply fine_bind; [now apply fine_pchar|]. intros; now apply fine_ok.
  Qed.
End Path.

Theorem path_only : forall k line, expects (x_expression k line) XPath -> exists a, line = a ++ lit "/".
Proof. intros k line. apply fine_expects. apply fine_trailing, fine_expr_p, suf_refl. Qed.
Theorem path_only_def : forall k line, expects (x_definition k line) XPath -> exists a, line = a ++ lit "/".
Proof. intros k line. apply fine_expects. apply fine_def. Qed.
