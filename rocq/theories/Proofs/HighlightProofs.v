(** Colouring a line keeps it. *)
From Coq Require Import String List ZArith NArith Bool Arith Lia Permutation Sorted.
From Verif Require Import Model.Base Model.Utf Model.Ast Model.Parse Model.Highlight Spec.LexSpec Proofs.UtfLemmas Proofs.AstInd.
From Verif Require Proofs.ParseSpanProofs Proofs.LexProofs.
Import ListNotations.

(** ** Leaves *)
Lemma named_blk_op : forall o ts i out, (named_op o -> exists t, blk_op (BPrefix o ts i out) = Ok t) /\ (~ named_op o -> blk_op (BPrefix o ts i out) = Panic).
Proof.
  intros [t|cs n r] ts i out; cbn [named_op blk_op is_op].
  - split; [intros _; now exists t|intros H; now destruct H].
  - split; intros H.
    + rewrite <- H, Nat.eqb_refl. destruct (rev cs) as [|z l] eqn:E; [|now exists z].
      apply (f_equal (@length _)) in E. rewrite rev_length in E. cbn in E. lia.
    + apply Nat.eqb_neq in H. now rewrite H.
Qed.

Definition lv_ok (r : res (list leaf)) (ops : list opref) : Prop :=
  (Forall named_op ops -> exists l, r = Ok l) /\ (~ Forall named_op ops -> r = Panic).
Lemma named_dec : forall o, {named_op o} + {~ named_op o}.
Proof. intros [t|cs i r]; cbn; [now left|]. apply Nat.eq_dec. Qed.
Lemma lv_dec : forall r ops, lv_ok r ops -> (exists l, r = Ok l) /\ Forall named_op ops \/ r = Panic /\ ~ Forall named_op ops.
Proof. intros r ops [A B]. destruct (Forall_dec named_op named_dec ops); [left|right]; auto. Qed.
Lemma lv_list : forall A (f : A -> res (list leaf)) (ops : A -> list opref) l, Forall (fun x => lv_ok (f x) (ops x)) l ->
  lv_ok ((fix go (l : list A) : res (list leaf) := match l with [] => Ok [] | b :: bs => let? a := f b in let? l := go bs in Ok (a ++ l) end) l) (flat_map ops l).
Proof.
  intros A f ops l H. induction H as [|x l Hx Hl IH].
  - split; [intros; eexists; reflexivity|]. intros X. destruct X. constructor.
  - cbn [flat_map]. unfold lv_ok. rewrite Forall_app. destruct (lv_dec _ _ Hx) as [[[a ->] Fa]|[-> Na]]; cbn [rbind].
    + destruct (lv_dec _ _ IH) as [[[b ->] Fb]|[-> Nb]]; cbn [rbind]; split; intros X; try tauto. now exists (a ++ b).
    + split; intros X; [tauto|reflexivity].
Qed.
Lemma leaves_all : (forall a, lv_ok (leaves_arg a) (arg_ops a)) /\ (forall t, lv_ok (leaves_term t) (term_ops t)) /\
  (forall b, lv_ok (leaves_block b) (block_ops b)) /\ (forall e, lv_ok (leaves_expr e) (expr_ops e)).
Proof.
  apply tree_all.
  1-4: intros; cbn; split; [intros; eexists; reflexivity|intros X; destruct X; constructor].
  - intros e H. exact H.
  - intros a H. exact H.
  - intros t. cbn. split; [intros; eexists; reflexivity|intros X; destruct X; constructor].
  - intros o ts i out H. cbn [leaves_block block_ops]. destruct (named_blk_op o ts i out) as [N1 N2].
    unfold lv_ok. rewrite Forall_cons_iff. destruct (named_dec o) as [N|N].
    + destruct (N1 N) as [t ->]. cbn [rbind].
      destruct (lv_dec _ _ (lv_list _ leaves_term term_ops ts H)) as [[[l E] F]|[E F]]; rewrite E; cbn [rbind]; split; intros X; try tauto.
      now eexists.
    + rewrite (N2 N). cbn [rbind]. split; intros X; [tauto|reflexivity].
  - intros o l r out H. cbn [leaves_block block_ops blk_op rbind]. unfold lv_ok. rewrite Forall_cons_iff.
    destruct (lv_dec _ _ H) as [[[a ->] F]|[-> F]]; cbn [rbind named_op]; split; intros X; try tauto. now eexists.
  - intros t bs out H. cbn [leaves_expr expr_ops]. exact (lv_list _ leaves_block block_ops bs H).
Qed.

(** ** The leaves are the words that are no types *)
Definition no_ty (x : leaf) : bool := match fst x with NType => false | _ => true end.
Definition lv_perm (r : res (list leaf)) (ws : list leaf) (ops : list opref) : Prop :=
  Forall plain_op ops -> exists l, r = Ok l /\ Permutation l (filter no_ty ws).
Lemma filter_ty : forall o, filter no_ty (ty_words o) = [].
Proof. now intros [t|]. Qed.
Lemma perm_list : forall A (f : A -> res (list leaf)) (ws : A -> list leaf) (ops : A -> list opref) l, Forall (fun x => lv_perm (f x) (ws x) (ops x)) l ->
  lv_perm ((fix go (l : list A) : res (list leaf) := match l with [] => Ok [] | b :: bs => let? a := f b in let? l := go bs in Ok (a ++ l) end) l) (flat_map ws l) (flat_map ops l).
Proof.
  intros A f ws ops l H. induction H as [|x l Hx Hl IH]; intros F.
  - exists []. split; [reflexivity|]. apply Permutation_refl.
  - cbn [flat_map] in *. apply Forall_app in F. destruct (Hx (proj1 F)) as (a & -> & Pa). destruct (IH (proj2 F)) as (b & -> & Pb). cbn [rbind].
    exists (a ++ b). split; [reflexivity|]. rewrite filter_app. now apply Permutation_app.
Qed.
Lemma leaves_perm : (forall a, lv_perm (leaves_arg a) (arg_words a) (arg_ops a)) /\ (forall t, lv_perm (leaves_term t) (term_words t) (term_ops t)) /\
  (forall b, lv_perm (leaves_block b) (block_words b) (block_ops b)) /\ (forall e, lv_perm (leaves_expr e) (expr_words e) (expr_ops e)).
Proof.
  apply tree_all.
  1-4: intros; intros F; eexists; (split; [reflexivity|]); apply Permutation_refl.
  - intros e H. exact H.
  - intros a H. exact H.
  - intros t F. eexists; (split; [reflexivity|]); apply Permutation_refl.
  - intros o ts i out H F. cbn [leaves_block block_words block_ops] in *. apply Forall_cons_iff in F. destruct F as [Fo F]. destruct o as [t|]; [|now destruct Fo].
    cbn [blk_op is_op rbind]. destruct (perm_list _ leaves_term term_words term_ops ts H F) as (l & -> & P). cbn [rbind].
    eexists; (split; [reflexivity|]). rewrite !filter_app, !filter_ty. cbn. now constructor.
  - intros o l r out H F. cbn [leaves_block block_words block_ops blk_op rbind] in *. apply Forall_cons_iff in F. destruct (H (proj2 F)) as (a & -> & P). cbn [rbind].
    eexists; (split; [reflexivity|]). rewrite !filter_app, filter_ty. cbn. eapply Permutation_trans; [|apply Permutation_middle]. constructor. now apply Permutation_app_tail.
  - intros t bs out H F. cbn [leaves_expr expr_ops expr_words] in *. destruct (perm_list _ leaves_block block_words block_ops bs H F) as (l & E & P).
    exists l. split; [exact E|]. now rewrite filter_app, filter_ty, app_nil_r.
Qed.

(** ** Painting *)
Lemma in_order_filter : forall line f lo hi l, in_order line lo hi l -> in_order line lo hi (filter f l).
Proof.
  intros line f lo hi l H. induction H as [lo hi L|lo m hi x txt xs H1 H2 IH]; cbn [filter]; [now constructor|].
  destruct (f x); [now econstructor; eauto|]. eapply LexProofs.ord_wide; [exact IH| |apply le_n]. eapply LexProofs.stands_le; eauto.
Qed.

Definition adj (line : str) (lo hi : nat) (x : leaf) : Prop :=
  exists p t q ty, line = p ++ t ++ q /\ adjust line x = (byte_len p, byte_len p + byte_len t, ty) /\ lo <= byte_len p /\
    byte_len p < hi /\ byte_len p + byte_len t <= hi /\ shows line x (ty, byte_len p, t).

Lemma ascii_len : forall a, Forall (fun c => (c < 128)%N) a -> byte_len a = length a.
Proof.
  induction 1 as [|c a H _ IH]; [reflexivity|]. rewrite byte_len_cons, IH. unfold len_utf8. cbn [length].
  replace (N.ltb c 128) with true by (symmetry; now apply N.ltb_lt). lia.
Qed.
Lemma byte_len_pos : forall s, s <> [] -> 0 < byte_len s.
Proof. intros [|c s] H; [congruence|]. rewrite byte_len_cons. pose proof (len_utf8_pos c). lia. Qed.

Lemma trip : forall (a b a' b' : nat) (c : ntype), a = a' -> b = b' -> (a, b, c) = (a', b', c).
Proof. now intros; subst. Qed.
Lemma stands_adj : forall line lo hi x txt, stands line lo hi x txt ->
  (fst x = NFlag -> forall a b, line = a ++ b -> byte_len a <= N.to_nat (tg_s (snd x)) -> Forall (fun c => (c < 128)%N) a) -> adj line lo hi x.
Proof.
  intros line lo hi x txt (a & pre & post & b & E & T & A & NE & Lo & Hi & Ss & Se) Asc. destruct x as [ty t]. cbn [fst snd] in *.
  subst txt. rewrite !byte_len_app in *. set (w := tg_str t) in *.
  assert (P0 : 0 < byte_len w + byte_len post).
  { destruct post as [|c post]; [assert (X := byte_len_pos w (NE eq_refl)); lia|]. rewrite byte_len_cons. pose proof (len_utf8_pos c). lia. }
  assert (BARE : ty <> NVar -> ty <> NFlag -> ty <> NIdent -> adj line lo hi (ty, t)).
  { intros N1 N2 N3. assert (pre = [] /\ post = []) as [-> ->] by (destruct ty; cbn in A; tauto). exists a, w, b, ty.
    cbn [app byte_len] in *. split; [rewrite E; cbn [app]; now rewrite app_nil_r|]. split.
    - unfold adjust. cbn [fst snd]. rewrite Ss, Se. change (byte_len []) with 0 in *. rewrite !Nat.add_0_r. destruct ty; try congruence; reflexivity.
    - repeat split; try lia. exists a, [], [], b. cbn [fst snd app]. repeat split; auto.
      + rewrite E. cbn [app]. now rewrite app_nil_r.
      + rewrite app_nil_r. cbn in Ss. lia.
      + rewrite app_nil_r. destruct ty; try congruence; reflexivity. }
  destruct ty; try (apply BARE; discriminate).
  - (* ident *)
    exists (a ++ pre), w, (post ++ b), NIdent. rewrite byte_len_app. split; [rewrite E, <- !app_assoc; reflexivity|].
    split; [unfold adjust; cbn [fst snd]; now rewrite Ss, Se|]. split; [lia|]. split; [lia|]. split; [lia|].
    exists a, pre, post, b. cbn [fst snd]. rewrite byte_len_app. repeat split; auto. rewrite E, <- !app_assoc; reflexivity.
  - (* var *)
    cbv beta iota delta [around] in A. destruct A as [-> ->]. change (byte_len (lit "$")) with 1 in *. change (byte_len []) with 0 in *.
    exists a, (lit "$" ++ w), b, NVar. rewrite byte_len_app. change (byte_len (lit "$")) with 1.
    split; [rewrite E, app_nil_r; reflexivity|]. split; [unfold adjust; cbn [fst snd]; rewrite Ss, Se; apply trip; lia|].
    split; [lia|]. split; [lia|]. split; [lia|]. exists a, (lit "$"), [], b. cbn [fst snd]. rewrite byte_len_app. change (byte_len (lit "$")) with 1.
    split; [rewrite E; now rewrite app_nil_r|]. split; [now split|]. split; [lia|]. rewrite app_nil_r. reflexivity.
  - (* flag *)
    specialize (Asc eq_refl). assert (Fa : Forall (fun c => (c < 128)%N) (a ++ pre)).
    { apply Asc with (w ++ post ++ b); [rewrite E, <- !app_assoc; reflexivity|]. rewrite byte_len_app. lia. }
    assert (Ap := ascii_len _ Fa). rewrite byte_len_app in Ap.
    assert (NTH : forall p c, a ++ pre = p ++ [c] -> nth_error line (N.to_nat (tg_s t) - 1) = Some c).
    { intros p c Ec. rewrite Ss, Ap, Ec, app_length. cbn [length]. replace (length p + 1 - 1) with (length p) by lia.
      rewrite E, <- app_assoc, app_assoc, Ec, <- app_assoc. rewrite nth_error_app2 by lia. now rewrite Nat.sub_diag. }
    cbv beta iota delta [around] in A. destruct A as [[-> ->]|(q & Q & -> & ->)].
    + change (byte_len (lit "--")) with 2 in *. change (byte_len []) with 0 in *.
      exists a, (lit "--" ++ w), b, NFlag. rewrite byte_len_app. change (byte_len (lit "--")) with 2.
      split; [rewrite E, app_nil_r; reflexivity|]. split.
      { unfold adjust. cbn [fst snd]. rewrite (NTH (a ++ lit "-") 45%N) by (cbn; now rewrite <- app_assoc). cbn. rewrite Ss, Se. apply trip; lia. }
      split; [lia|]. split; [lia|]. split; [lia|]. exists a, (lit "--"), [], b. cbn [fst snd]. rewrite byte_len_app. change (byte_len (lit "--")) with 2.
      split; [rewrite E; now rewrite app_nil_r|]. split; [now left|]. split; [lia|]. rewrite app_nil_r. reflexivity.
    + assert (L3 : byte_len (lit "--" ++ [q]) = 3) by (destruct Q as [-> | ->]; reflexivity).
      assert (L1 : byte_len [q] = 1) by (destruct Q as [-> | ->]; reflexivity). rewrite L3, L1 in *.
      exists a, ((lit "--" ++ [q]) ++ w ++ [q]), b, NFlag. rewrite (byte_len_app (lit "--" ++ [q])), (byte_len_app w), L3, L1.
      split; [rewrite E; reflexivity|]. split.
      { unfold adjust. cbn [fst snd]. rewrite (NTH (a ++ lit "--") q) by (now rewrite <- app_assoc).
        assert (Eq : (N.eqb q 39 || N.eqb q 34)%bool = true) by (destruct Q as [-> | ->]; reflexivity). rewrite Eq, Ss, Se. apply trip; lia. }
      split; [lia|]. split; [lia|]. split; [lia|]. exists a, (lit "--" ++ [q]), [q], b. cbn [fst snd]. rewrite (byte_len_app a), L3.
      split; [rewrite E, <- !app_assoc; reflexivity|]. split; [right; exists q; auto|]. split; [lia|]. reflexivity.
Qed.

Inductive adjs (line : str) : nat -> nat -> list leaf -> Prop :=
| adjs_nil : forall lo hi, adjs line lo hi []
| adjs_cons : forall lo m hi x xs, adj line lo m x -> adjs line m hi xs -> adjs line lo hi (x :: xs).
Lemma order_adjs : forall line lo hi l, in_order line lo hi l -> ascii_before_flags line l -> adjs line lo hi l.
Proof.
  intros line lo hi l H. induction H as [lo hi L|lo m hi x txt xs H1 H2 IH]; intros A; [constructor|].
  econstructor.
  - eapply stands_adj; [exact H1|]. intros F. destruct x as [ty t]. cbn [fst snd] in *. subst ty. intros a b Ea La. eapply (A t); eauto. now left.
  - apply IH. intros t a b I Ea La. eapply (A t); eauto. now right.
Qed.
Lemma adjs_wide : forall line lo lo' hi l, adjs line lo hi l -> lo' <= lo -> adjs line lo' hi l.
Proof.
  intros line lo lo' hi l H L. destruct H as [|lo m hi x xs (p & t & q & ty & X)]; econstructor; [|eassumption].
  exists p, t, q, ty. destruct X as (A & B & C & D). repeat split; auto; try tauto. lia.
Qed.

Lemma paint_ok : forall line hi xs p q, adjs line (byte_len p) hi xs -> line = p ++ q ->
  exists ps, paint line (byte_len p) (map (adjust line) xs) = Ok ps /\ concat (map snd ps) = q /\ Forall2 (shows line) xs (coloured (byte_len p) ps).
Proof.
  intros line hi xs. induction xs as [|x xs IH]; intros p q H E; cbn [map paint].
  - destruct (Nat.ltb_spec (byte_len p) (byte_len line)).
    + replace (slice_bytes (byte_len p) (byte_len line) line) with (Ok q).
      2:{ assert (X := slice_bytes_app p q []). rewrite app_nil_r in X. rewrite <- byte_len_app, <- E in X. now rewrite X. }
      cbn [rbind]. eexists. split; [reflexivity|]. cbn. rewrite app_nil_r. split; [reflexivity|constructor].
    + exists []. split; [reflexivity|]. rewrite E, byte_len_app in H0. destruct q as [|c q]; [split; [reflexivity|constructor]|].
      assert (X := byte_len_pos (c :: q) ltac:(discriminate)). lia.
  - inversion H as [|lo m hi' x' xs' HX HXs]; subst. destruct HX as (p' & t & q' & ty & E' & Ad & L1 & L2 & L3 & Sh). rewrite Ad.
    assert (G : exists g, p' = p ++ g /\ q = g ++ t ++ q').
    { assert (Q : forall a b c d : str, a ++ b = c ++ d -> byte_len a <= byte_len c -> exists g, c = a ++ g /\ b = g ++ d).
      { clear. induction a as [|z a IH]; intros b c d E L; [exists c; now split|]. destruct c as [|y c].
        - rewrite byte_len_cons in L. pose proof (len_utf8_pos z). cbn in L. lia.
        - cbn in E. injection E as -> E. rewrite !byte_len_cons in L. destruct (IH b c d E ltac:(lia)) as (g & -> & ->). now exists g. }
      exact (Q _ _ _ _ E' L1). }
    destruct G as (g & -> & ->). rewrite byte_len_app in *.
    assert (Sl : slice_bytes (byte_len p + byte_len g) (byte_len p + byte_len g + byte_len t) (p ++ g ++ t ++ q') = Ok t).
    { assert (X := slice_bytes_app (p ++ g) t q'). rewrite byte_len_app, <- app_assoc in X. exact X. }
    destruct (IH ((p ++ g) ++ t) q') as (ps & Ep & Ec & Ef).
    { eapply adjs_wide; [exact HXs|]. rewrite !byte_len_app. lia. }
    { now rewrite <- !app_assoc. }
    rewrite !byte_len_app in Ep, Ef.
    destruct (Nat.ltb_spec (byte_len p) (byte_len p + byte_len g)) as [Lt|Ge].
    + assert (Sg := slice_bytes_app p g (t ++ q')). rewrite Sg, Sl. cbn [rbind]. rewrite Ep. cbn [rbind].
      eexists. split; [reflexivity|]. split; [cbn; now rewrite Ec|]. cbn. constructor; auto.
    + rewrite Sl. cbn [rbind]. rewrite Ep. cbn [rbind]. assert (g = []) as -> by (destruct g as [|c g]; [reflexivity|]; assert (X := byte_len_pos (c :: g) ltac:(discriminate)); lia).
      eexists. split; [reflexivity|]. split; [cbn; now rewrite Ec|]. cbn in *. rewrite Nat.add_0_r in *. constructor; auto.
Qed.

(** ** Sorting *)
Definition slt (a b : range) : Prop := start_of a < start_of b.
Lemma adjs_low : forall line lo hi l, adjs line lo hi l -> Forall (fun x => lo <= start_of (adjust line x)) l.
Proof.
  intros line lo hi l H. induction H as [|lo m hi x xs (p & t & q & ty & _ & A & B & C & D & _) H IH]; constructor.
  - rewrite A. cbn. lia.
  - eapply Forall_impl; [|exact IH]. cbn. intros; lia.
Qed.
Lemma adjs_sorted : forall line lo hi l, adjs line lo hi l -> StronglySorted slt (map (adjust line) l).
Proof.
  intros line lo hi l H. induction H as [|lo m hi x xs X H IH]; cbn [map]; constructor; auto.
  apply Forall_map. assert (Y := adjs_low _ _ _ _ H). destruct X as (p & t & q & ty & _ & A & B & C & D & _). eapply Forall_impl; [|exact Y].
  cbn. intros y Ly. unfold slt. rewrite A. cbn in *. lia.
Qed.
Lemma sorted_unique : forall (l2 l1 : list range), Permutation l1 l2 -> Sorted (fun a b => start_of a <= start_of b) l1 -> StronglySorted slt l2 -> l1 = l2.
Proof.
  induction l2 as [|y l2 IH]; intros l1 P S1 S2.
  - apply Permutation_nil. now symmetry.
  - apply Sorted_StronglySorted in S1; [|intros a b c; lia]. destruct l1 as [|x l1]; [now apply Permutation_nil in P|].
    inversion S1 as [|? ? S1' F1]; subst. inversion S2 as [|? ? S2' F2]; subst.
    assert (x = y).
    { assert (I1 : In x (y :: l2)) by (eapply Permutation_in; [exact P|now left]). assert (I2 : In y (x :: l1)) by (eapply Permutation_in; [symmetry; exact P|now left]).
      destruct I1 as [->|I1]; [reflexivity|]. destruct I2 as [->|I2]; [reflexivity|].
      rewrite Forall_forall in F1, F2. specialize (F1 _ I2). specialize (F2 _ I1). unfold slt in F2. cbn in F1. lia. }
    subst y. f_equal. apply IH; auto; [|now apply StronglySorted_Sorted]. eapply Permutation_cons_inv; eauto.
Qed.

Theorem highlight_ok : forall sorter line ls ws, sorts sorter -> in_order line 0 (byte_len line) ws -> Permutation ws ls -> ascii_before_flags line ls ->
  exists ps, highlight sorter line ls = Ok ps /\ coloured_well line ls ps.
Proof.
  intros sorter line ls ws Hs O P A.
  assert (A' : ascii_before_flags line ws). { intros t a b I. apply A. eapply Permutation_in; eauto. }
  assert (Aj := order_adjs _ _ _ _ O A'). destruct (Hs (map (adjust line) ls)) as [Hp Hso].
  assert (E : sorter (map (adjust line) ls) = map (adjust line) ws).
  { apply sorted_unique; auto; [|eapply adjs_sorted; eauto]. eapply Permutation_trans; [exact Hp|]. apply Permutation_map. now symmetry. }
  unfold highlight. rewrite E. destruct (paint_ok line (byte_len line) ws [] line Aj eq_refl) as (ps & E1 & E2 & E3). cbn in E1, E3.
  exists ps. split; [exact E1|]. split; [exact E2|]. now exists ws.
Qed.

Lemma expr_leaves_ok : forall line e, in_order line 0 (byte_len line) (expr_words e) -> Forall plain_op (expr_ops e) ->
  exists ls ws, leaves_expr e = Ok ls /\ Permutation ws ls /\ in_order line 0 (byte_len line) ws.
Proof.
  intros line e O F. destruct (proj2 (proj2 (proj2 leaves_perm)) e F) as (ls & E & P). exists ls, (filter no_ty (expr_words e)).
  split; [exact E|]. split; [now symmetry|]. now apply in_order_filter.
Qed.

(** ** Definitions *)
Lemma in_order_drop : forall line lo hi a b c, in_order line lo hi (a ++ b ++ c) -> in_order line lo hi (a ++ c).
Proof.
  intros line lo hi a b c H. revert lo H. induction a as [|x a IH]; cbn; intros lo H.
  - revert lo H. induction b as [|y b IHb]; cbn; intros lo H; [exact H|]. inversion H; subst. apply IHb. eapply LexProofs.ord_wide; [eassumption| |apply le_n].
    eapply LexProofs.stands_le; eauto.
  - inversion H; subst. econstructor; eauto.
Qed.
Lemma def_leaves_ok : forall line d, in_order line 0 (byte_len line) (def_words line d) -> Forall plain_op (expr_ops (snd d)) ->
  exists ls ws, leaves_def line d = Ok ls /\ Permutation ws ls /\ in_order line 0 (byte_len line) ws.
Proof.
  intros line [[[nm ity] ps] e] O F. cbn [snd] in F. destruct (proj2 (proj2 (proj2 leaves_perm)) e F) as (ls & E & P).
  unfold leaves_def. rewrite E. cbn [rbind]. eexists.
  exists ([(NCommand, def_word line nm); (NCommand, nm)] ++ ty_words ity ++ map (fun p => (NParameter, fst p)) ps ++ filter no_ty (expr_words e)).
  split; [reflexivity|]. split.
  - apply Permutation_app_head. apply Permutation_app; [destruct ity; apply Permutation_refl|]. apply Permutation_app_head. now symmetry.
  - unfold def_words in O.
    assert (G : forall pre, in_order line 0 (byte_len line) (pre ++ flat_map (fun p => (NParameter, fst p) :: ty_words (snd p)) ps ++ expr_words e) ->
       in_order line 0 (byte_len line) (pre ++ map (fun p : aparam => (NParameter, fst p)) ps ++ filter no_ty (expr_words e))).
    { clear. induction ps as [|p ps IH]; intros pre O; cbn [flat_map map app] in *.
      - revert O. generalize (byte_len line) as hi. generalize 0 as lo. induction pre as [|x pre IH]; cbn; intros lo hi O; [now apply in_order_filter|].
        inversion O; subst. econstructor; eauto.
      - assert (X : in_order line 0 (byte_len line) ((pre ++ [(NParameter, fst p)]) ++ flat_map (fun p => (NParameter, fst p) :: ty_words (snd p)) ps ++ expr_words e)).
        { apply in_order_drop with (ty_words (snd p)). rewrite <- !app_assoc in *. exact O. }
        apply IH in X. rewrite <- app_assoc in X. exact X. }
    assert (X := G ([(NCommand, def_word line nm); (NCommand, nm)] ++ ty_words ity)). rewrite <- !app_assoc in X. apply X. exact O.
Qed.

Lemma highlights_expression : forall k line r e sorter, expression k line = POk r e -> Forall plain_op (expr_ops e) -> sorts sorter ->
  exists ls, leaves_expr e = Ok ls /\ (ascii_before_flags line ls -> exists ps, highlight sorter line ls = Ok ps /\ coloured_well line ls ps).
Proof.
  intros k line r e sorter H F S. destruct (expr_leaves_ok line e (LexProofs.expression_words _ _ _ _ H) F) as (ls & ws & E & P & O).
  exists ls. split; [exact E|]. intros A. eapply highlight_ok; eauto.
Qed.
Lemma highlights_definition : forall k line r d sorter, definition_impl k line = POk r d -> Forall plain_op (expr_ops (snd d)) -> sorts sorter ->
  exists ls, leaves_def line d = Ok ls /\ (ascii_before_flags line ls -> exists ps, highlight sorter line ls = Ok ps /\ coloured_well line ls ps).
Proof.
  intros k line r e sorter H F S. destruct (def_leaves_ok line e (LexProofs.definition_words _ _ _ _ H) F) as (ls & ws & E & P & O).
  exists ls. split; [exact E|]. intros A. eapply highlight_ok; eauto.
Qed.
Lemma leaves_iff : forall e, (Forall named_op (expr_ops e) -> exists ls, leaves_expr e = Ok ls) /\ (~ Forall named_op (expr_ops e) -> leaves_expr e = Panic).
Proof. intros e. exact (proj2 (proj2 (proj2 leaves_all)) e). Qed.

(** A sort for examples. *)
Fixpoint insert (x : range) (l : list range) : list range :=
  match l with [] => [x] | y :: l' => if Nat.leb (start_of x) (start_of y) then x :: l else y :: insert x l' end.
Definition isort (l : list range) : list range := fold_right insert [] l.
Lemma isort_sorts : sorts isort.
Proof.
  intros l. induction l as [|x l [P S]]; [split; [apply Permutation_refl|constructor]|]. cbn [isort fold_right]. fold (isort l).
  assert (I : forall m, Permutation (insert x m) (x :: m)).
  { induction m as [|y m IH]; cbn; [apply Permutation_refl|]. destruct (Nat.leb _ _); [apply Permutation_refl|].
    eapply Permutation_trans; [constructor; exact IH|]. constructor. }
  split; [eapply Permutation_trans; [apply I|now constructor]|].
  clear P. induction S as [|y m Sm IH Hd]; cbn; [repeat constructor|]. destruct (Nat.leb_spec (start_of x) (start_of y)) as [L|L].
  - constructor; [now constructor|]. now constructor.
  - constructor; [apply IH|]. destruct m as [|z m]; cbn; [constructor; lia|]. destruct (Nat.leb _ _); constructor; [lia|]. now inversion Hd.
Qed.
