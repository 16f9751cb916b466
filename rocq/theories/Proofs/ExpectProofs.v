From Coq Require Import String List ZArith NArith Bool Arith Lia.
From Verif Require Import Model.Base Model.Utf Model.Ast Model.Parse Model.Highlight Model.Complete Model.Expect Spec.ParseSpec Spec.CompleteSpec Spec.ExpectSpec
  Proofs.ParseSpanProofs Proofs.ParseWriteProofs Proofs.ParseMainProofs.
Import ListNotations.

(** ** The same parser *)
Lemma forget_bind : forall A B (r : xres A) (f : str -> A -> xres B), forget (xbind r f) = pbind (forget r) (fun i a => forget (f i a)).
Proof. intros A B [] f; reflexivity. Qed.
Lemma forget_bare : forall A (r : pres A), forget (bare r) = r.
Proof. intros A []; reflexivity. Qed.
Lemma forget_exp : forall A e (r : xres A), forget (exp e r) = forget r.
Proof. intros A e [|[]|[]|]; reflexivity. Qed.
Lemma forget_cut : forall A (r : xres A), forget (xcut r) = cut (forget r).
Proof. intros A []; reflexivity. Qed.
Lemma forget_opt : forall A i (r : xres A), forget (xopt i r) = popt i (forget r).
Proof. intros A i []; reflexivity. Qed.
Lemma bind_ext : forall A B (r : pres A) (f g : str -> A -> pres B), (forall i a, f i a = g i a) -> pbind r f = pbind r g.
Proof. intros A B [] f g H; cbn; auto. Qed.
Lemma forget_ws : forall A (p : str -> xres A) q i, (forall i, forget (p i) = q i) -> forget (x_ws p i) = ws q i.
Proof. intros A p q i H. unfold x_ws, ws. rewrite forget_bind, H. apply bind_ext. reflexivity. Qed.

Section Unfold.
  Variable k : lang.
  Variable line : str.
  Lemma x_expr_S : forall (fuel : nat) (input : str), x_expr k line (S fuel) input =

        let+ (i, b) := x_ws (x_block k line fuel) input in
        let+ (i, bs) := x_pipes k line fuel i [b] in
        let fin i bs := XOk i (Expr (set_end line (create_tag line input input) (N.of_nat (offset line i))) bs None) in
        match x_ws (x_block k line fuel) i with
        | XOk j b => fin j (bs ++ [b])
        | XFuel => XFuel
        | _ => fin i bs
        end.
  Proof. reflexivity. Qed.
  Lemma x_pipes_S : forall (fuel : nat) (i : str) (bs : list block), x_pipes k line (S fuel) i bs =

        if starts 124 i then let+ (i, b) := x_ws (x_block k line fuel) (tl i) in x_pipes k line fuel i (bs ++ [b])
        else XOk i bs.
  Proof. reflexivity. Qed.
  Lemma x_block_S : forall (fuel : nat) (i : str), x_block k line (S fuel) i =

        let+ (i, in_ty) := x_opt_ty k line i in
        let+ (i, o) := exp XImpl (x_op k line (skip i)) in
        let+ (i, out_ty) := x_opt_ty k line i in
        let+ (i, ts) := x_terms k line fuel i [] in
        XOk i (BPrefix o ts in_ty out_ty).
  Proof. reflexivity. Qed.
  Lemma x_terms_S : forall (fuel : nat) (i : str) (ts : list term), x_terms k line (S fuel) i ts =

        match x_ws (x_term k line fuel) i with
        | XOk j t => if Nat.eqb (length j) (length i) then XErr XNone else x_terms k line fuel j (ts ++ [t])
        | XErr _ => XOk i ts
        | XFail x => XFail x
        | XFuel => XFuel
        end.
  Proof. reflexivity. Qed.
  Lemma x_term_S : forall (fuel : nat) (i : str), x_term k line (S fuel) i =

        match strip (lit "--") i with
        | Some _ => let+ (i, t) := bare (flag k line i) in XOk i (TFlag t)
        | None =>
            let+ (i, a) := x_arg k line fuel i in
            let+ (i, a) := x_infix k line (length i) i a in
            XOk i (TArg a)
        end.
  Proof. reflexivity. Qed.
  Lemma x_arg_S : forall (fuel : nat) (i : str), x_arg k line (S fuel) i =

        if starts 123 i then
          if empty_braces i then XFail XImpl
          else
            let start := tg_s (create_tag line i i) in
            let+ (j, e) := xcut (let+ (j, u) := bare (pchar 123 i) in
                                 let+ (j, e) := x_ws (x_expr k line fuel) j in
                                 let+ (j, u) := exp XTerm (bare (pchar 125 j)) in XOk j e) in
            let+ (j, out) := x_opt_ty k line j in
            let t := set_start line (ex_tag e) start in
            let t := set_end line t (tg_e t + 1) in
            let t := match out with Some o => set_end line t (tg_e o) | None => t end in
            XOk j (AExpr (Expr t (ex_blocks e) out))
        else if starts 58 i then XFail XTerm
        else if breakon_s k i then XErr XNone
        else if starts 36 i then let+ (j, t) := bare (var k line i) in XOk j (AVar t)
        else if starts 35 i then
          let+ (j, c) := xcut (exp XSpec (bare (op_ident k line (tl i)))) in
          match byte_len (tg_str c), tg_str c with
          | 1, ch :: _ => XOk j (APound ch (set_start line c (tg_s c - 1)))
          | _, _ => XFail XSpec
          end
        else match num k line i with
        | POk j nt => XOk j (ANum (fst nt) (snd nt))
        | _ =>
            if known_op k line i then
              let t := create_tag line i i in
              let+ (j, b) := x_ws (x_block k line fuel) i in
              XOk j (AExpr (Expr (set_end line t (N.of_nat (offset line j))) [b] None))
            else let+ (j, t) := bare (ident k line i) in XOk j (AIdent t)
        end.
  Proof. reflexivity. Qed.
End Unfold.

Section E.
  Variable k : lang.
  Variable line : str.
  Lemma forget_ty : forall i, forget (x_opt_ty k line i) = opt_ty k line i.
  Proof. intros i. unfold x_opt_ty, opt_ty. rewrite forget_opt, forget_bind, forget_bare. f_equal. apply bind_ext. intros. now rewrite forget_exp, forget_cut, forget_bare. Qed.
  Lemma forget_path : forall i, forget (x_path k line i) = path k line i.
  Proof.
    intros i. unfold x_path, path. destruct (match strip (lit "/") i with Some j => (j, true) | None => (i, false) end) as [i' r]. rewrite forget_bind, forget_bare. apply bind_ext. intros j a. destruct (sep_list k line (length j) j [a]) as [l cs]. destruct (starts 47 l); reflexivity.
  Qed.
  Lemma forget_op : forall i, forget (x_op k line i) = op k line i.
  Proof. intros i. unfold x_op, op. destruct (spec_op i); [reflexivity|..]; rewrite forget_bind, forget_path; apply bind_ext; reflexivity. Qed.
  Lemma forget_infix : forall f i a, forget (x_infix k line f i a) = infix k line f i a.
  Proof.
    induction f as [|f IH]; intros i a; cbn [x_infix infix]; destruct (starts 46 i); try reflexivity. rewrite forget_bind, forget_bare. apply bind_ext. intros j u. rewrite forget_bind, forget_cut, forget_bare. apply bind_ext. intros j2 t. rewrite forget_bind, forget_ty. apply bind_ext. intros. apply IH.
  Qed.
  Lemma forget_all : forall f,
    (forall i, forget (x_expr k line f i) = p_expr k line f i) /\ (forall i bs, forget (x_pipes k line f i bs) = p_pipes k line f i bs) /\ (forall i, forget (x_block k line f i) = p_block k line f i) /\
    (forall i ts, forget (x_terms k line f i ts) = p_terms k line f i ts) /\ (forall i, forget (x_term k line f i) = p_term k line f i) /\ (forall i, forget (x_arg k line f i) = p_arg k line f i).
  Proof.
    induction f as [|f (IE & IP & IB & IT & It & IA)]; [repeat split; reflexivity|]. repeat split; intros.
    - rewrite x_expr_S, p_expr_S. cbv zeta. rewrite forget_bind, (forget_ws _ _ _ _ IB). apply bind_ext. intros j b. rewrite forget_bind, IP. apply bind_ext. intros j2 bs. rewrite <- (forget_ws _ _ _ j2 IB). destruct (x_ws (x_block k line f) j2); reflexivity.
    - rewrite x_pipes_S, p_pipes_S. cbv zeta. destruct (starts 124 i); [|reflexivity]. rewrite forget_bind, (forget_ws _ _ _ _ IB). apply bind_ext. intros. apply IP.
    - rewrite x_block_S, p_block_S. cbv zeta. rewrite forget_bind, forget_ty. apply bind_ext. intros. rewrite forget_bind, forget_exp, forget_op. apply bind_ext. intros. rewrite forget_bind, forget_ty. apply bind_ext. intros. rewrite forget_bind, IT. apply bind_ext. reflexivity.
    - rewrite x_terms_S, p_terms_S. cbv zeta. rewrite <- (forget_ws _ _ _ i It). destruct (x_ws (x_term k line f) i); cbn; try reflexivity. destruct (length i0 =? length i); [reflexivity|apply IT].
    - rewrite x_term_S, p_term_S. cbv zeta. destruct (strip (lit "--") i); [rewrite forget_bind, forget_bare; apply bind_ext; reflexivity|]. rewrite forget_bind, IA. apply bind_ext. intros. rewrite forget_bind, forget_infix. apply bind_ext. reflexivity.
    - rewrite x_arg_S, p_arg_S. cbv zeta. destruct (starts 123 i).
      { destruct (empty_braces i); [reflexivity|]. rewrite forget_bind, forget_cut, forget_bind, forget_bare.
        replace (pbind (pchar 123 i) (fun i0 a => forget (xbind (x_ws (x_expr k line f) i0) (fun i1 x => xbind (exp XTerm (bare (pchar 125 i1))) (fun i2 _ => XOk i2 x))))) with
          (pbind (pchar 123 i) (fun i0 (_ : unit) => pbind (ws (p_expr k line f) i0) (fun i1 x => pbind (pchar 125 i1) (fun i2 _ => POk i2 x)))).
        - apply bind_ext. intros. rewrite forget_bind, forget_ty. apply bind_ext. reflexivity.
        - apply bind_ext. intros. rewrite forget_bind, (forget_ws _ _ _ _ IE). apply bind_ext. intros. rewrite forget_bind, forget_exp, forget_bare. apply bind_ext. reflexivity. }
      destruct (starts 58 i); [reflexivity|]. destruct (breakon_s k i); [reflexivity|]. destruct (starts 36 i); [rewrite forget_bind, forget_bare; apply bind_ext; reflexivity|].
      destruct (starts 35 i). { rewrite forget_bind, forget_cut, forget_exp, forget_bare. apply bind_ext. intros j c. destruct (byte_len (tg_str c)) as [|[|]]; try reflexivity. destruct (tg_str c); reflexivity. }
      destruct (num k line i); [reflexivity|..]; (destruct (known_op k line i); [rewrite forget_bind, (forget_ws _ _ _ _ IB); apply bind_ext; reflexivity|rewrite forget_bind, forget_bare; apply bind_ext; reflexivity]).
  Qed.
  Lemma forget_trailing : forall A (p : str -> xres A) q i, (forall i, forget (p i) = q i) -> forget (x_no_trailing k p i) = no_trailing k q i.
  Proof. intros A p q i H. unfold x_no_trailing, no_trailing. rewrite forget_bind, H. apply bind_ext. intros j a. destruct (blank k j); reflexivity. Qed.
  Lemma forget_expr_p : forall i, forget (x_expr_p k line i) = expr_p k line i.
  Proof. intros i. apply forget_all. Qed.
  Lemma forget_def_op : forall i, forget (x_def_op k line i) = def_op k line i.
  Proof.
    intros i. unfold x_def_op, def_op. rewrite forget_bind. rewrite (forget_ws _ _ (fun i => pbind (ptag (lit "def ") i) (fun i _ => op k line i))).
    - apply bind_ext. intros j o. destruct (is_op o) as [[t|]| |]; reflexivity.
    - intros j. rewrite forget_bind, forget_bare. apply bind_ext. intros. apply forget_op.
  Qed.
  Lemma forget_def : forall i, forget (x_def_impl k line i) = def_impl k line i.
  Proof.
    intros i. unfold x_def_impl, def_impl. rewrite forget_bind. rewrite forget_def_op.
    apply bind_ext. intros j n. rewrite forget_bind, forget_bare. apply bind_ext. intros j2 ity. rewrite forget_bind, forget_exp, forget_bare. apply bind_ext. intros j3 ps. rewrite forget_bind.
    rewrite (forget_trailing _ _ (ws (fun i => pbind (pchar 123 i) (fun i _ => pbind (ws (expr_p k line) i) (fun i e => pbind (pchar 125 i) (fun i _ => POk i e)))))); [apply bind_ext; reflexivity|].
    intros j4. apply forget_ws. intros j5. rewrite forget_bind, forget_bare. apply bind_ext. intros. rewrite forget_bind, (forget_ws _ _ _ _ forget_expr_p). apply bind_ext. intros. rewrite forget_bind, forget_bare. apply bind_ext. reflexivity.
  Qed.
End E.
Theorem same_expression : forall k line, forget (x_expression k line) = expression k line.
Proof. intros k line. apply forget_trailing. apply forget_expr_p. Qed.
Theorem same_definition : forall k line, forget (x_definition k line) = definition_impl k line.
Proof. intros k line. apply forget_def. Qed.
Lemma forget_ok : forall A (r : xres A) i a, forget r = POk i a -> r = XOk i a.
Proof. intros A [] i' a' H; cbn in H; congruence. Qed.

(** ** Programs that are not finished *)
Scheme u_terms_i := Induction for u_terms Sort Prop with u_block_i := Induction for u_block Sort Prop with u_blocks_i := Induction for u_blocks Sort Prop.
Combined Scheme u_all from u_terms_i, u_block_i, u_blocks_i.
Ltac lens := repeat match goal with H : skip ?i = _ |- _ => assert (length (skip i) <= length i) by apply skip_len; rewrite H in *; clear H end; rewrite ?app_length in *; cbn [length app] in *; rewrite ?app_length in *; lia.
Lemma xws_fail : forall A (p : str -> xres A) i x, p (skip i) = XFail x -> x_ws p i = XFail x.
Proof. intros A p i x H. unfold x_ws. now rewrite H. Qed.
Lemma gap_first : forall w s, gap w -> exists c s', w ++ s = c :: s' /\ ms c = true.
Proof. intros w s (N' & S'). destruct w as [|c w]; [congruence|]. exists c, (w ++ s). split; [auto|]. apply ms_in, S'. now left. Qed.
Section U.
  Variable k : lang.
  Variable line : str.
  Hypothesis K : sane k.
  Notation suf i := (ParseSpanProofs.suf i line).
  Lemma u_soft : forall s x, u_terms k s x -> soft s.
  Proof. intros s x H. destruct H; now apply gap_soft. Qed.
  Lemma xty_ok : forall i j o, opt_ty k line i = POk j o -> x_opt_ty k line i = XOk j o.
  Proof. intros. apply forget_ok. now rewrite forget_ty. Qed.
  Lemma xty_end : x_opt_ty k line (lit ":") = XFail XType.
  Proof. reflexivity. Qed.
  (** The front of a block. *)
  Lemma xhead : forall o i si w0 so Y, w_ty k i si -> (i = None -> w0 = []) -> (i <> None -> gap w0) -> w_op k o so -> op_stop k Y -> suf (si ++ w0 ++ so ++ Y) ->
    exists i' o', x_opt_ty k line (si ++ w0 ++ so ++ Y) = XOk (w0 ++ so ++ Y) i' /\ skip (w0 ++ so ++ Y) = so ++ Y /\ x_op k line (so ++ Y) = XOk Y o' /\ suf Y.
  Proof.
    intros o i si w0 so Y Hi Hn Hg Ho P1 S. destruct (op_first k K o so Ho) as (ch & s2 & Ec & Oc). assert (Mc := break_ms k K _ (op_char_break k K _ Oc)).
    assert (Sy : suf (so ++ Y)) by (eapply suf_trans; [|exact S]; exists (si ++ w0); now rewrite <- app_assoc).
    assert (T : exists i', opt_ty k line (si ++ w0 ++ so ++ Y) = POk (w0 ++ so ++ Y) i').
    { destruct i as [ti|].
      - destruct (read_ty k line (Some ti) si (w0 ++ so ++ Y) Hi S) as (i' & E & _); [apply soft_stop, gap_soft, Hg; auto; discriminate|apply soft_58, gap_soft, Hg; discriminate|eauto].
      - cbn in Hi. subst si. rewrite (Hn eq_refl). cbn [app]. rewrite ty_none; [eauto|]. rewrite Ec. cbn. apply N.eqb_neq. intros ->. apply (op_char_not k K _ Oc). cbn. tauto. }
    destruct T as (i' & E1). destruct (read_op k line K o so Y Ho Sy P1) as (o' & E2 & _). exists i', o'. split; [now apply xty_ok|]. split; [|split; [apply forget_ok; now rewrite forget_op|eapply suf_trans; [|exact Sy]; now exists so]].
    assert (W0 : spaces w0) by (destruct i as [ti|]; [apply Hg; discriminate|rewrite (Hn eq_refl); intros c []]). rewrite skip_spaces by auto. rewrite Ec. cbn [app]. now apply skip_cons.
  Qed.

  Definition QT (s : str) (x : expecting) : Prop := forall i acc f, suf i -> skip i = skip s -> 4 * length i + 3 < f -> x_terms k line f i acc = XFail x.
  Definition QB (s : str) (x : expecting) : Prop := (exists c s', s = c :: s' /\ ms c = false /\ c <> 125%N) /\ forall f, suf s -> 4 * length s < f -> x_block k line f s = XFail x.
  Definition QBs (s : str) (x : expecting) : Prop := starts 125 (skip s) = false /\ forall i f f2, suf i -> skip i = skip s -> 4 * length i < f -> 4 * length i <= f2 ->
    expects (x_ws (x_block k line f) i) x \/ exists r b, x_ws (x_block k line f) i = XOk r b /\ length r < length i /\ forall acc, expects (x_pipes k line f2 r acc) x.
  Lemma q_expr : forall s x, QBs s x -> forall i f, suf i -> skip i = skip s -> 4 * length i + 2 < f -> expects (x_expr k line f i) x.
  Proof.
    intros s x (_ & H) i f S E L. destruct f as [|f]; [lia|]. rewrite x_expr_S. cbv zeta. destruct (H i f f S E ltac:(lia) ltac:(lia)) as [[Z|Z]|(r & b & Z & _ & P)]; rewrite Z; cbn [xbind]; [now left|now right|].
    destruct (P [b]) as [Q|Q]; rewrite Q; [now left|now right].
  Qed.
  (** In braces. *)
  Lemma q_brace : forall f j x, suf (123%N :: j) -> starts 125 (skip j) = false -> expects (xbind (x_ws (x_expr k line f) j) (fun j e => let+ (j, u) := exp XTerm (bare (pchar 125 j)) in XOk j e)) x ->
    x_arg k line (S f) (123%N :: j) = XFail x.
  Proof.
    intros f j x S E H. rewrite x_arg_S. change (starts 123 (123%N :: j)) with true. cbv iota. unfold empty_braces. rewrite E. cbv iota zeta. change (bare (pchar 123 (123%N :: j))) with (XOk (A:=unit) j tt). cbn [xbind]. destruct H as [H|H]; rewrite H; reflexivity.
  Qed.
  Lemma q_term : forall f j x, x_arg k line f (123%N :: j) = XFail x -> x_term k line (S f) (123%N :: j) = XFail x.
  Proof. intros f j x H. rewrite x_term_S. change (strip (lit "--") (123%N :: j)) with (@None str). cbv iota. now rewrite H. Qed.
  Lemma q_braced : forall w j x f i acc, gap w -> suf i -> skip i = skip (w ++ 123%N :: j) -> starts 125 (skip j) = false -> 4 * length i + 3 < f ->
    (forall f', 4 * length j + 2 < f' -> expects (xbind (x_ws (x_expr k line f') j) (fun j e => let+ (j, u) := exp XTerm (bare (pchar 125 j)) in XOk j e)) x) -> x_terms k line f i acc = XFail x.
  Proof.
    intros w j x f i acc G S E Z L H. rewrite skip_spaces in E by apply G. rewrite skip_cons in E by reflexivity. assert (Sk := suf_trans _ _ _ (suf_skip i) S). rewrite E in Sk.
    do 3 (destruct f as [|f]; [lia|]). rewrite x_terms_S. rewrite (xws_fail _ _ i x); [reflexivity|]. rewrite E. apply q_term, q_brace; auto. apply H. lens.
  Qed.

  Lemma unfinished_all : (forall s x, u_terms k s x -> QT s x) /\ (forall s x, u_block k s x -> QB s x) /\ (forall s x, u_blocks k s x -> QBs s x).
  Proof.
    destruct (read_all k line K) as (RA & RT & RTs & RB & RBs). apply u_all.
    - (* a term *) intros t w s s' x G Ht Hu IH i acc f S E L. destruct (RT t s Ht) as ((ch & s2 & -> & Mc) & P). rewrite skip_spaces in E by apply G. cbn [app] in E. rewrite skip_cons in E by auto.
      assert (Sk := suf_trans _ _ _ (suf_skip i) S). rewrite E in Sk. destruct f as [|f]; [lia|].
      destruct (P s' f Sk (u_soft _ _ Hu)) as (t' & E1 & _); [cbn [app]; lens|]. rewrite x_terms_S. unfold x_ws. rewrite E. cbn [app] in E1. rewrite (forget_ok _ (x_term k line f (ch :: s2 ++ s')) s' t') by (rewrite (proj1 (proj2 (proj2 (proj2 (proj2 (forget_all k line f)))))); exact E1). cbn [xbind].
      assert (Ln : length (skip s') < length i) by (pose proof (skip_len s'); lens). destruct (Nat.eqb_spec (length (skip s')) (length i)); [lia|]. apply IH; [|apply skip_idem|lia].
      refine (suf_trans _ _ _ (suf_skip _) (suf_trans _ _ _ _ Sk)). exists (ch :: s2). reflexivity.
    - (* bare *) intros t out w so s x G Ho Hout Hu IH Kn Nn i acc f S E L. rewrite skip_spaces in E by apply G. destruct (single_first k _ Ho) as (ch & s2 & Ec & Oc).
      assert (Sf := u_soft _ _ Hu). destruct (ty_op_stop k K out so s Hout Sf) as (P1 & P2 & P3).
      assert (Ec' : tg_str t ++ so ++ s = ch :: s2 ++ so ++ s) by now rewrite Ec.
      assert (E' : skip i = tg_str t ++ so ++ s) by (rewrite E, Ec', skip_cons; [reflexivity|]; now apply (break_ms k K), (op_char_break k K)).
      clear E. assert (Sk := suf_trans _ _ _ (suf_skip i) S). rewrite E' in Sk. assert (LL : 4 * length (tg_str t ++ so ++ s) + 3 < f) by (pose proof (skip_len i) as Z; rewrite E' in Z; lia).
      do 4 (destruct f as [|f]; [lia|]). rewrite x_terms_S, (xws_fail _ _ i x); [reflexivity|]. rewrite E', x_term_S.
      assert (D : strip (lit "--") (tg_str t ++ so ++ s) = None).
      { apply no_dashes; [|rewrite Ec; discriminate|exact P2]. intros r Er. rewrite Er in Ho. destruct Ho as [Ho|Ho].
        - cbn in Ho. repeat (destruct Ho as [Ho|Ho]; [discriminate|]). destruct Ho.
        - destruct (names_first k _ Ho) as (c & s3 & E & A). injection E as <- _. apply (alpha_mark k K _ A). cbn. tauto. }
      rewrite D, x_arg_S. cbv zeta. assert (B := breakon_starts k ch (s2 ++ so ++ s) (op_char_break k K _ Oc)). rewrite <- Ec' in B. destruct B as (-> & -> & ->).
      assert (Q : forall q, In q (lit "|{}:$#""'") -> starts q (tg_str t ++ so ++ s) = false) by (intros q Iq; rewrite Ec'; cbn; apply N.eqb_neq; intros ->; now apply (op_char_not k K q Oc)).
      rewrite !Q by (cbn; tauto). rewrite (op_token k line K _ _ Ho P3 Nn). destruct (read_op k line K (OpSingle t) (tg_str t) _ (conj eq_refl Ho) Sk P1) as (o' & E1 & E2).
      assert (KO : known_op k line (tg_str t ++ so ++ s) = true) by (unfold known_op; rewrite E1; destruct o' as [t'|]; [|discriminate]; cbn in E2 |- *; injection E2 as ->; exact Kn).
      rewrite KO. rewrite (xws_fail _ _ _ x); [reflexivity|]. assert (Sk' : skip (tg_str t ++ so ++ s) = tg_str t ++ so ++ s) by (rewrite <- E'; apply skip_idem). rewrite Sk', x_block_S.
      assert (T0 : opt_ty k line (tg_str t ++ so ++ s) = POk (tg_str t ++ so ++ s) None) by (apply ty_none, Q; cbn; tauto). rewrite (xty_ok _ _ _ T0). cbn [xbind]. rewrite Sk'.
      rewrite (forget_ok _ (x_op k line (tg_str t ++ so ++ s)) (so ++ s) o') by (now rewrite forget_op). cbn [exp xbind].
      assert (Sy := suf_trans _ _ _ (ex_intro _ (tg_str t) eq_refl) Sk : suf (so ++ s)). destruct (read_ty k line out so s Hout Sy) as (out' & E4 & _); [now apply soft_stop|now apply soft_58|]. rewrite (xty_ok _ _ _ E4). cbn [xbind].
      rewrite IH; [reflexivity|exact (suf_trans _ _ _ (ex_intro _ so eq_refl) Sy)|reflexivity|]. rewrite Ec in LL. lens.
    - (* in braces *) intros w s x G Hu IH i acc f S E L. apply (q_braced w s x f i acc G S E); [apply IH|exact L|]. intros f' L'. assert (Sj : suf s).
      { assert (Sk := suf_trans _ _ _ (suf_skip i) S). rewrite E, skip_spaces in Sk by apply G. cbn [app lit] in Sk. rewrite skip_cons in Sk by reflexivity. exact (suf_trans _ _ _ (suf_cons _ _) Sk). }
      assert (X := q_expr _ _ IH (skip s) f' (suf_trans _ _ _ (suf_skip s) Sj) (skip_idem s) ltac:(pose proof (skip_len s); lia)). unfold x_ws. destruct X as [X|X]; rewrite X; [now left|now right].
    - (* not closed *) intros w bs s G Hb i acc f S E L. assert (Sj : suf s).
      { assert (Sk := suf_trans _ _ _ (suf_skip i) S). rewrite E, skip_spaces in Sk by apply G. cbn [app lit] in Sk. rewrite skip_cons in Sk by reflexivity. exact (suf_trans _ _ _ (suf_cons _ _) Sk). }
      apply (q_braced w s XTerm f i acc G S E); [|exact L|].
      + inversion Hb as [b w1 s1 w2 H1 Hb1 H2 Eb Es|b bs' w1 s1 w2 s' H1 Hb1 H2 H3 Eb Es]; subst; destruct (block_first k K _ _ Hb1) as (c & s2 & -> & Mc & N1 & _); rewrite skip_spaces by auto; cbn [app]; rewrite skip_cons by auto; cbn; now apply N.eqb_neq.
      + intros f' L'. destruct (read_blocks k line f' (skip s) bs s [] K Hb) as (e' & E1 & _); [now left|reflexivity|exact (suf_trans _ _ _ (suf_skip _) Sj)|rewrite app_nil_r; apply skip_idem|pose proof (skip_len s); lia|].
        unfold x_ws. rewrite (forget_ok _ (x_expr k line f' (skip s)) [] e') by (rewrite (proj1 (forget_all k line f')); exact E1). left. reflexivity.
    - (* its type *) intros w bs s G Hb i acc f S E L. change (w ++ lit "{" ++ s ++ lit "}:") with (w ++ 123%N :: s ++ lit "}:") in E. rewrite skip_spaces in E by apply G. rewrite skip_cons in E by reflexivity. assert (Sk := suf_trans _ _ _ (suf_skip i) S). rewrite E in Sk.
      assert (Sj := suf_trans _ _ _ (suf_cons _ _) Sk : suf (s ++ lit "}:")). assert (LL : 4 * length (123%N :: s ++ lit "}:") + 3 < f) by (pose proof (skip_len i) as Z; rewrite E in Z; lia). cbn [length] in LL.
      do 4 (destruct f as [|f]; [lia|]). rewrite x_terms_S, (xws_fail _ _ i XType); [reflexivity|]. rewrite E. apply q_term. rewrite x_arg_S. change (starts 123 (123%N :: s ++ lit "}:")) with true. cbv iota. 
      assert (EB : empty_braces (123%N :: s ++ lit "}:") = false).
      { unfold empty_braces. inversion Hb as [b w1 s1 w2 H1 Hb1 H2 Eb Es|b bs' w1 s1 w2 s' H1 Hb1 H2 H3 Eb Es]; subst; destruct (block_first k K _ _ Hb1) as (c & s2 & -> & Mc & N1 & _); rewrite <- !app_assoc, skip_spaces by auto; cbn [app]; rewrite skip_cons by auto; cbn; now apply N.eqb_neq. }
      rewrite EB. cbv iota zeta. change (bare (pchar 123 (123%N :: s ++ lit "}:"))) with (XOk (A:=unit) (s ++ lit "}:") tt). cbn [xbind].
      destruct (read_blocks k line (Datatypes.S f) (skip (s ++ lit "}:")) bs s (lit "}:") K Hb) as (e' & E1 & _); [right; do 2 eexists; split; [reflexivity|now right]|reflexivity|exact (suf_trans _ _ _ (suf_skip _) Sj)|apply skip_idem|pose proof (skip_len (s ++ lit "}:")); lia|].
      unfold x_ws. rewrite (forget_ok _ (x_expr k line (Datatypes.S f) (skip (s ++ lit "}:"))) (lit "}:") e') by (rewrite (proj1 (forget_all k line (Datatypes.S f))); exact E1). reflexivity.
    - (* a hash *) intros w G i acc f S E L. rewrite skip_spaces in E by apply G. change (skip (lit "#")) with (lit "#") in E. do 4 (destruct f as [|f]; [lia|]). rewrite x_terms_S, (xws_fail _ _ i XSpec); [reflexivity|]. rewrite E, x_term_S. change (strip (lit "--") (lit "#")) with (@None str). cbv iota. rewrite x_arg_S.
      change (starts 123 (lit "#")) with false. change (starts 58 (lit "#")) with false. cbv iota. assert (B : breakon_s k (lit "#") = false) by (cbn; unfold breakon; cbn; apply (sane_marks K); cbn; tauto). rewrite B. reflexivity.
    - (* terms *) intros o i out si w so sout s x Hi Hn Hg Ho Hout Hu IH. assert (Sf := u_soft _ _ Hu). destruct (ty_op_stop k K out sout s Hout Sf) as (P1 & _ & _). split.
      + destruct i as [ti|]; [destruct Hi as (_ & ->); exists 58%N; eexists; repeat split; discriminate|]. cbn in Hi. subst si. rewrite (Hn eq_refl). destruct (op_first k K o so Ho) as (c & s2 & -> & Oc). exists c. eexists. split; [reflexivity|]. split; [now apply (break_ms k K), (op_char_break k K)|]. intros ->. apply (op_char_not k K _ Oc). cbn. tauto.
      + intros f S L. destruct f as [|f]; [lia|]. destruct (xhead o i si w so (sout ++ s) Hi Hn Hg Ho P1 S) as (i' & o' & E1 & E2 & E3 & Sy). rewrite x_block_S, E1. cbn [xbind]. rewrite E2, E3. cbn [exp xbind].
        destruct (read_ty k line out sout s Hout Sy) as (out' & E4 & _); [now apply soft_stop|now apply soft_58|]. rewrite (xty_ok _ _ _ E4). cbn [xbind].
        rewrite IH; [reflexivity|exact (suf_trans _ _ _ (ex_intro _ sout eq_refl) Sy)|reflexivity|]. destruct (op_first k K o so Ho) as (c & s2 & -> & _). lens.
    - (* input *) split; [exists 58%N, []; repeat split; discriminate|]. intros f S L. destruct f as [|f]; [lia|]. rewrite x_block_S, xty_end. reflexivity.
    - (* output *) intros o i si w so Hi Hn Hg Ho. split.
      + destruct i as [ti|]; [destruct Hi as (_ & ->); exists 58%N; eexists; repeat split; discriminate|]. cbn in Hi. subst si. rewrite (Hn eq_refl). destruct (op_first k K o so Ho) as (c & s2 & -> & Oc). exists c. eexists. split; [reflexivity|]. split; [now apply (break_ms k K), (op_char_break k K)|]. intros ->. apply (op_char_not k K _ Oc). cbn. tauto.
      + intros f S L. destruct f as [|f]; [lia|]. assert (P1 : op_stop k (lit ":")) by (split; [apply stop_colon; auto|]; repeat split; intros X' Z; discriminate Z).
        destruct (xhead o i si w so (lit ":") Hi Hn Hg Ho P1 S) as (i' & o' & E1 & E2 & E3 & Sy). rewrite x_block_S, E1. cbn [xbind]. rewrite E2, E3. cbn [exp xbind]. now rewrite xty_end.
    - (* start *) intros w W. assert (Z : skip w = []) by (rewrite <- (app_nil_r w), skip_spaces by auto; reflexivity). split; [now rewrite Z|]. intros i f f2 S E L L2. left. left. unfold x_ws. rewrite E, Z. destruct f as [|f]; [lia|]. reflexivity.
    - (* block *) intros w s x W Hb ((c & s' & -> & Mc & N1) & IH). assert (Z : skip (w ++ c :: s') = c :: s') by (rewrite skip_spaces by auto; now apply skip_cons). split; [rewrite Z; cbn; now apply N.eqb_neq|].
      intros i f f2 S E L L2. rewrite Z in E. left. right. apply xws_fail. rewrite E. apply IH; [rewrite <- E; exact (suf_trans _ _ _ (suf_skip i) S)|]. rewrite <- E. pose proof (skip_len i). lia.
    - (* more *) intros b w s w' s' x W Hb W' Hu (Z' & IH). destruct (block_first k K b s Hb) as (c & s2 & Ec & Mc & N1 & _).
      assert (Z : skip (w ++ s ++ w' ++ lit "|" ++ s') = s ++ w' ++ lit "|" ++ s') by (rewrite skip_spaces by auto; rewrite Ec; cbn [app]; now apply skip_cons). split; [rewrite Z, Ec; cbn; now apply N.eqb_neq|].
      intros i f f2 S E L L2. rewrite Z in E. assert (Sk := suf_trans _ _ _ (suf_skip i) S). rewrite E in Sk. right. assert (R : hard (lit "|" ++ s')) by (right; do 2 eexists; split; [reflexivity|now left]).
      assert (LL := skip_len i). rewrite E in LL. destruct (RB b s Hb w' (lit "|" ++ s') f W' R Sk) as (r & b' & E1 & E2 & _); [lia|]. exists (lit "|" ++ s'), b'.
      assert (Sr : suf s') by (eapply suf_trans; [|exact Sk]; exists (s ++ w' ++ lit "|"); now rewrite <- !app_assoc).
      split; [unfold x_ws; rewrite E, (forget_ok _ (x_block k line f (s ++ w' ++ lit "|" ++ s')) r b') by (rewrite (proj1 (proj2 (proj2 (forget_all k line f)))); exact E1); cbn [xbind]; now rewrite E2|].
      assert (LS : length (lit "|" ++ s') < length i) by (rewrite Ec in LL; rewrite !app_length in *; cbn [length] in *; lia). split; [exact LS|]. intros acc. cbn [app lit length] in LS. destruct f2 as [|f2]; [lia|]. rewrite x_pipes_S. change (starts 124 (lit "|" ++ s')) with true. cbv iota. cbn [tl app lit].
      destruct (IH s' f2 f2 Sr eq_refl) as [[H|H]|(r2 & b2 & H & _ & P)]; [lia|lia|rewrite H; now left|rewrite H; now right|]. rewrite H. cbn [xbind]. apply P.
  Qed.
End U.
Theorem unfinished : forall k s x, sane k -> u_blocks k s x -> expects (x_expression k s) x.
Proof.
  intros k s x K H. pose proof (proj2 (proj2 (unfinished_all k s K)) s x H) as Q. unfold x_expression, x_no_trailing, x_expr_p.
  destruct (q_expr k s s x Q s (enough s) (suf_refl s) eq_refl) as [E|E]; [unfold enough; lia|rewrite E; now left|rewrite E; now right].
Qed.

(** Definitions *)
Definition body_p (k : lang) (line : str) (i : str) : xres expr :=
  x_no_trailing k (x_ws (fun i => let+ (i, u) := bare (pchar 123 i) in let+ (i, e) := x_ws (x_expr_p k line) i in let+ (i, u) := bare (pchar 125 i) in XOk i e)) i.
Lemma head_read : forall k h Z, sane k -> w_head k h -> exists n ity ps, x_def_impl k (h ++ Z) (h ++ Z) = let+ (i, e) := body_p k (h ++ Z) Z in XOk i (n, ity, ps, e).
Proof.
  intros k h Z K H. destruct H as [n ps w1 sp Nn W1 Hps ND|n ty ps w1 w1' sp Nn Nt W1 W1' Hps ND].
  - set (Y := lit "(" ++ sp ++ lit ")" ++ Z). replace ((lit "def " ++ tg_str n ++ w1 ++ lit "(" ++ sp ++ lit ")") ++ Z) with (lit "def " ++ tg_str n ++ w1 ++ Y) by (unfold Y; now rewrite <- !app_assoc).
    set (line := lit "def " ++ tg_str n ++ w1 ++ Y). assert (Sy : suf Y line) by (exists (lit "def " ++ tg_str n ++ w1); unfold line; now rewrite <- !app_assoc).
    destruct (read_def_op k line K n [] (w1 ++ Y) Nn) as (n' & E & _); [intros c []|exact (spaces_op_stop k K w1 40%N (sp ++ lit ")" ++ Z) W1 (or_introl eq_refl))|apply suf_refl|]. rewrite (skip_spaces w1 _ W1) in E. change (skip Y) with Y in E. cbn [app] in E.
    unfold x_def_impl. rewrite (forget_ok _ (x_def_op k line line) Y n') by (rewrite forget_def_op; exact E). cbn [xbind].
    assert (T : ws (fun i => popt i (op_ident k line i)) Y = POk Y None) by (unfold ws; change (skip Y) with Y; unfold op_ident, Y; cbn [app lit]; rewrite (alpha_mark' k K) by (cbn; tauto); reflexivity).
    rewrite T. cbn [bare xbind]. destruct (read_def_params k line K ps sp Z Hps Sy) as [A _]. destruct (A ND) as (ps' & E2 & _). fold Y in E2. rewrite E2. cbn [bare exp xbind]. do 3 eexists. reflexivity.
  - set (Y := lit "(" ++ sp ++ lit ")" ++ Z). replace ((lit "def " ++ tg_str n ++ w1 ++ tg_str ty ++ w1' ++ lit "(" ++ sp ++ lit ")") ++ Z) with (lit "def " ++ tg_str n ++ w1 ++ tg_str ty ++ w1' ++ Y) by (unfold Y; now rewrite <- !app_assoc).
    set (line := lit "def " ++ tg_str n ++ w1 ++ tg_str ty ++ w1' ++ Y). assert (Sy : suf Y line) by (exists (lit "def " ++ tg_str n ++ w1 ++ tg_str ty ++ w1'); unfold line; now rewrite <- !app_assoc).
    assert (St : suf (tg_str ty ++ w1' ++ Y) line) by (exists (lit "def " ++ tg_str n ++ w1); unfold line; now rewrite <- !app_assoc).
    assert (Sk : skip (tg_str ty ++ w1' ++ Y) = tg_str ty ++ w1' ++ Y) by (destruct Nt as [(c & s' & E & A) _]; rewrite E; cbn [app]; apply skip_cons, (break_ms k K), id_break; auto; now apply alpha_id).
    destruct (read_def_op k line K n [] (w1 ++ tg_str ty ++ w1' ++ Y) Nn) as (n' & E & _); [intros c []|apply soft_op_stop; [auto|now apply gap_soft]|apply suf_refl|]. rewrite (skip_spaces w1), Sk in E by apply W1. cbn [app] in E.
    unfold x_def_impl. rewrite (forget_ok _ (x_def_op k line line) (tg_str ty ++ w1' ++ Y) n') by (rewrite forget_def_op; exact E). cbn [xbind].
    destruct (read_name k line (tg_str ty) (w1' ++ Y) St Nt) as (ty' & Et & _); [apply spaces_stop; auto; apply paren_stop; auto|].
    assert (T : ws (fun i => popt i (op_ident k line i)) (tg_str ty ++ w1' ++ Y) = POk Y (Some ty')) by (unfold ws; rewrite Sk, Et; cbn [popt pbind]; rewrite (skip_spaces w1') by auto; reflexivity).
    rewrite T. cbn [bare xbind]. destruct (read_def_params k line K ps sp Z Hps Sy) as [A _]. destruct (A ND) as (ps' & E2 & _). fold Y in E2. rewrite E2. cbn [bare exp xbind]. do 3 eexists. reflexivity.
Qed.
Theorem unfinished_body : forall k h w s x, sane k -> w_head k h -> spaces w -> u_blocks k s x -> expects (x_definition k (h ++ w ++ lit "{" ++ s)) x.
Proof.
  intros k h w s x K Hh W Hu. unfold x_definition. destruct (head_read k h (w ++ lit "{" ++ s) K Hh) as (n & ity & ps & ->). set (line := h ++ w ++ lit "{" ++ s).
  assert (Sj : suf s line) by (exists (h ++ w ++ lit "{"); unfold line; now rewrite <- !app_assoc). pose proof (proj2 (proj2 (unfinished_all k line K)) s x Hu) as Q.
  assert (X := q_expr k line s x Q (skip s) (enough (skip s)) (suf_trans _ _ _ (suf_skip s) Sj) (skip_idem s) ltac:(unfold enough; lia)).
  unfold body_p, x_no_trailing. unfold x_ws at 1. rewrite (skip_spaces w _ W). change (skip (lit "{" ++ s)) with (lit "{" ++ s). change (bare (pchar 123 (lit "{" ++ s))) with (XOk (A:=unit) s tt). cbn [xbind].
  unfold x_ws at 1. unfold x_expr_p. destruct X as [X|X]; rewrite X; [now left|now right].
Qed.
Theorem unclosed_body : forall k h w bs s, sane k -> w_head k h -> spaces w -> w_blocks k bs s -> expects (x_definition k (h ++ w ++ lit "{" ++ s)) XNone.
Proof.
  intros k h w bs s K Hh W Hb. unfold x_definition. destruct (head_read k h (w ++ lit "{" ++ s) K Hh) as (n & ity & ps & ->). set (line := h ++ w ++ lit "{" ++ s).
  assert (Sj : suf s line) by (exists (h ++ w ++ lit "{"); unfold line; now rewrite <- !app_assoc).
  destruct (read_blocks k line (enough (skip s)) (skip s) bs s [] K Hb) as (e' & E1 & _); [now left|reflexivity|exact (suf_trans _ _ _ (suf_skip _) Sj)|rewrite app_nil_r; apply skip_idem|unfold enough; lia|].
  unfold body_p, x_no_trailing. unfold x_ws at 1. rewrite (skip_spaces w _ W). change (skip (lit "{" ++ s)) with (lit "{" ++ s). change (bare (pchar 123 (lit "{" ++ s))) with (XOk (A:=unit) s tt). cbn [xbind].
  unfold x_ws at 1. unfold x_expr_p. rewrite (forget_ok _ (x_expr k line (enough (skip s)) (skip s)) [] e') by (rewrite (proj1 (forget_all k line (enough (skip s)))); exact E1). left. reflexivity.
Qed.
Theorem def_type : forall k n w, sane k -> In (tg_str n) symbols \/ names k (tg_str n) -> gap w -> expects (x_definition k (lit "def " ++ tg_str n ++ w)) XType.
Proof.
  intros k n w K Nn G. set (line := lit "def " ++ tg_str n ++ w). destruct (read_def_op k line K n [] w Nn) as (n' & E & _); [intros c []|apply soft_op_stop; [auto|]; rewrite <- (app_nil_r w); now apply gap_soft|apply suf_refl|].
  assert (Z : skip w = []) by (rewrite <- (app_nil_r w), skip_spaces by apply G; reflexivity). rewrite Z in E. cbn [app] in E. unfold x_definition, x_def_impl. fold line. rewrite (forget_ok _ (x_def_op k line line) [] n') by (rewrite forget_def_op; exact E). left. reflexivity.
Qed.

(** What is offered *)
Theorem get_next : forall k is_dir read_dir impls types line wd x, sane k -> strip (lit "def ") line = None -> u_blocks k line x ->
  get k is_dir read_dir impls types line wd = at_spot is_dir read_dir impls types line wd (SNext x).
Proof. intros k is_dir read_dir impls types line wd x K D H. unfold get. rewrite D. destruct (unfinished k line x K H) as [E|E]; rewrite E; reflexivity. Qed.
Theorem get_body : forall k is_dir read_dir impls types h w s wd x, sane k -> w_head k h -> spaces w -> u_blocks k s x ->
  get k is_dir read_dir impls types (h ++ w ++ lit "{" ++ s) wd = at_spot is_dir read_dir impls types (h ++ w ++ lit "{" ++ s) wd (SNext x).
Proof.
  intros k is_dir read_dir impls types h w s wd x K Hh W H. unfold get. assert (D : exists r, strip (lit "def ") (h ++ w ++ lit "{" ++ s) = Some r) by (destruct Hh; rewrite <- !app_assoc; eexists; apply (proj2 (strip_app (lit "def ") _ _)); reflexivity).
  destruct D as (r & ->). destruct (unfinished_body k h w s x K Hh W H) as [E|E]; rewrite E; reflexivity.
Qed.
Theorem body_refuted : forall k is_dir read_dir impls types h w bs s wd, sane k -> w_head k h -> spaces w -> w_blocks k bs s ->
  expects (x_definition k (h ++ w ++ lit "{" ++ s)) XNone /\ get k is_dir read_dir impls types (h ++ w ++ lit "{" ++ s) wd = Ok None.
Proof.
  intros k is_dir read_dir impls types h w bs s wd K Hh W H. pose proof (unclosed_body k h w bs s K Hh W H) as X. split; [exact X|].
  unfold get. assert (D : exists r, strip (lit "def ") (h ++ w ++ lit "{" ++ s) = Some r) by (destruct Hh; rewrite <- !app_assoc; eexists; apply (proj2 (strip_app (lit "def ") _ _)); reflexivity).
  destruct D as (r & ->). destruct X as [E|E]; rewrite E; reflexivity.
Qed.
