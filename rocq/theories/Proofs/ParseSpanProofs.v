(** The parser stops, and spans lie in order in the line. *)
From Coq Require Import String List ZArith NArith Bool Arith Lia.
From Verif Require Import Model.Base Model.Utf Model.Ast Model.Parse Spec.ParseSpec.
Import ListNotations.

Definition suf (j i : str) : Prop := exists p, i = p ++ j.
Lemma suf_refl : forall i, suf i i.
Proof. intros i. now exists []. Qed.
Lemma suf_trans : forall a b c, suf a b -> suf b c -> suf a c.
Proof. intros a b c (p & ->) (q & ->). exists (q ++ p). now rewrite app_assoc. Qed.
Lemma suf_len : forall j i, suf j i -> length j <= length i.
Proof. intros j i (p & ->). rewrite app_length. lia. Qed.
Lemma suf_cons : forall c i, suf i (c :: i).
Proof. intros c i. now exists [c]. Qed.
Lemma suf_tl : forall i, suf (tl i) i.
Proof. intros [|c i]; [apply suf_refl|apply suf_cons]. Qed.
Lemma byte_len_app : forall a b, byte_len (a ++ b) = byte_len a + byte_len b.
Proof. induction a as [|c a IH]; intros b; cbn; [reflexivity|]. rewrite IH. lia. Qed.
Lemma len_utf8_pos : forall c, 0 < len_utf8 c.
Proof. intros c. unfold len_utf8. repeat destruct (N.ltb _ _); lia. Qed.
Lemma suf_skip : forall i, suf (skip i) i.
Proof. induction i as [|c i IH]; [apply suf_refl|]. cbn. destruct (ms c); [|apply suf_refl]. eapply suf_trans; [exact IH|apply suf_cons]. Qed.
Lemma strip_app : forall p i j, strip p i = Some j <-> i = p ++ j.
Proof.
  induction p as [|a p IH]; intros i j; cbn; [split; [intros H; now injection H|intros ->; reflexivity]|].
  destruct i as [|b i]; [split; [discriminate|discriminate]|]. destruct (N.eqb_spec a b) as [->|n].
  - rewrite IH. split; [intros ->; reflexivity|intros H; now injection H].
  - split; [discriminate|intros H; injection H as -> _; congruence].
Qed.
Lemma span_app : forall p i a b, span p i = (a, b) -> i = a ++ b.
Proof.
  induction i as [|c i IH]; intros a b H; cbn in H; [injection H as <- <-; reflexivity|]. destruct (p c).
  - destruct (span p i) as [a' b'] eqn:E. injection H as <- <-. cbn. f_equal. now apply IH.
  - injection H as <- <-. reflexivity.
Qed.

(** ** Unfolding *)
Section Unfold.
  Variable k : lang.
  Variable line : str.
  Lemma p_expr_S : forall (fuel : nat) (input : str), p_expr k line (S fuel) input =

        let* (i, b) := ws (p_block k line fuel) input in
        let* (i, bs) := p_pipes k line fuel i [b] in
        let fin i bs := POk i (Expr (set_end line (create_tag line input input) (N.of_nat (offset line i))) bs None) in
        match ws (p_block k line fuel) i with
        | POk j b => fin j (bs ++ [b])
        | PFuel => PFuel
        | _ => fin i bs
        end.
  Proof. reflexivity. Qed.
  Lemma p_pipes_S : forall (fuel : nat) (i : str) (bs : list block), p_pipes k line (S fuel) i bs =

        if starts 124 i then let* (i, b) := ws (p_block k line fuel) (tl i) in p_pipes k line fuel i (bs ++ [b])
        else POk i bs.
  Proof. reflexivity. Qed.
  Lemma p_block_S : forall (fuel : nat) (i : str), p_block k line (S fuel) i =

        let* (i, in_ty) := opt_ty k line i in
        let* (i, o) := op k line (skip i) in
        let* (i, out_ty) := opt_ty k line i in
        let* (i, ts) := p_terms k line fuel i [] in
        POk i (BPrefix o ts in_ty out_ty).
  Proof. reflexivity. Qed.
  Lemma p_terms_S : forall (fuel : nat) (i : str) (ts : list term), p_terms k line (S fuel) i ts =

        match ws (p_term k line fuel) i with
        | POk j t => if Nat.eqb (length j) (length i) then PErr else p_terms k line fuel j (ts ++ [t])
        | PErr => POk i ts
        | PFail => PFail
        | PFuel => PFuel
        end.
  Proof. reflexivity. Qed.
  Lemma p_term_S : forall (fuel : nat) (i : str), p_term k line (S fuel) i =

        match strip (lit "--") i with
        | Some _ => let* (i, t) := flag k line i in POk i (TFlag t)
        | None =>
            let* (i, a) := p_arg k line fuel i in
            let* (i, a) := infix k line (length i) i a in
            POk i (TArg a)
        end.
  Proof. reflexivity. Qed.
  Lemma p_arg_S : forall (fuel : nat) (i : str), p_arg k line (S fuel) i =

        if starts 123 i then
          if empty_braces i then PFail
          else
            let start := tg_s (create_tag line i i) in
            let* (j, e) := cut (let* (j, u) := pchar 123 i in
                                let* (j, e) := ws (p_expr k line fuel) j in
                                let* (j, u) := pchar 125 j in POk j e) in
            let* (j, out) := opt_ty k line j in
            let t := set_start line (ex_tag e) start in
            let t := set_end line t (tg_e t + 1) in
            let t := match out with Some o => set_end line t (tg_e o) | None => t end in
            POk j (AExpr (Expr t (ex_blocks e) out))
        else if starts 58 i then PFail
        else if breakon_s k i then PErr
        else if starts 36 i then let* (j, t) := var k line i in POk j (AVar t)
        else if starts 35 i then
          let* (j, c) := cut (op_ident k line (tl i)) in
          match byte_len (tg_str c), tg_str c with
          | 1, ch :: _ => POk j (APound ch (set_start line c (tg_s c - 1)))
          | _, _ => PFail
          end
        else match num k line i with
        | POk j nt => POk j (ANum (fst nt) (snd nt))
        | _ =>
            if known_op k line i then
              let t := create_tag line i i in
              let* (j, b) := ws (p_block k line fuel) i in
              POk j (AExpr (Expr (set_end line t (N.of_nat (offset line j))) [b] None))
            else let* (j, t) := ident k line i in POk j (AIdent t)
        end.
  Proof. reflexivity. Qed.
End Unfold.

Section S.
  Variable k : lang.
  Variable line : str.
  Notation off := (offset line).
  Notation spt := (sp_tag line).

  Lemma off_suf : forall i j, suf i line -> suf j i -> off i <= off j.
  Proof. intros i j (p & E) (q & ->). unfold offset. rewrite byte_len_app. lia. Qed.
  Lemma off_app : forall p j, suf (p ++ j) line -> off j = off (p ++ j) + byte_len p.
  Proof. intros p j (q & E). unfold offset. rewrite E, !byte_len_app. lia. Qed.
  Lemma off_max : forall i, off i <= byte_len line.
  Proof. intros i. unfold offset. lia. Qed.

  Lemma drop_app : forall p s, drop_bytes (byte_len p) (p ++ s) = Some s.
  Proof.
    induction p as [|c p IH]; intros s; cbn [byte_len app]; [destruct s; reflexivity|]. assert (L := len_utf8_pos c).
    destruct (len_utf8 c + byte_len p) as [|n] eqn:E; [lia|]. cbn [drop_bytes]. rewrite <- E.
    destruct (Nat.leb_spec (len_utf8 c) (len_utf8 c + byte_len p)); [|lia]. replace (len_utf8 c + byte_len p - len_utf8 c) with (byte_len p) by lia. apply IH.
  Qed.
  Lemma take_app : forall p s, take_bytes (byte_len p) (p ++ s) = Some p.
  Proof.
    induction p as [|c p IH]; intros s; cbn [byte_len app]; [destruct s; reflexivity|]. assert (L := len_utf8_pos c).
    destruct (len_utf8 c + byte_len p) as [|n] eqn:E; [lia|]. cbn [take_bytes]. rewrite <- E.
    destruct (Nat.leb_spec (len_utf8 c) (len_utf8 c + byte_len p)); [|lia]. replace (len_utf8 c + byte_len p - len_utf8 c) with (byte_len p) by lia.
    rewrite IH. reflexivity.
  Qed.
  Lemma slice_ok : forall p j, suf (p ++ j) line -> slice_bytes (off (p ++ j)) (off j) line = Ok p.
  Proof.
    intros p j H. rewrite (off_app p j H). destruct H as (q & E). assert (Q : off (p ++ j) = byte_len q).
    { unfold offset. rewrite E, !byte_len_app. lia. }
    rewrite Q. unfold slice_bytes. destruct (Nat.leb_spec (byte_len q) (byte_len q + byte_len p)); [|lia].
    rewrite E, drop_app. replace (byte_len q + byte_len p - byte_len q) with (byte_len p) by lia. now rewrite take_app.
  Qed.

  (** Tags made from two places *)
  Lemma mk_s : forall s e, N.to_nat (tg_s (mk line s e)) = s.
  Proof. intros. cbn. apply Nat2N.id. Qed.
  Lemma mk_e : forall s e, N.to_nat (tg_e (mk line s e)) = e.
  Proof. intros. cbn. apply Nat2N.id. Qed.
  Lemma mk_text : forall p j, suf (p ++ j) line -> tg_str (mk line (off (p ++ j)) (off j)) = p.
  Proof. intros p j H. cbn. now rewrite slice_ok. Qed.
  Lemma mk_sp : forall i j lo hi, suf i line -> suf j i -> lo <= off i -> off j <= hi -> spt lo hi (mk line (off i) (off j)).
  Proof.
    intros i j lo hi Hi Hj L H. unfold sp_tag. rewrite mk_s, mk_e. split; [auto|]. split; [now apply off_suf|]. split; [auto|].
    destruct Hj as (p & ->). rewrite mk_text by auto. now apply slice_ok.
  Qed.

  (** The tag covers the text between two inputs. *)
  Definition covers (i j : str) (t : tag) : Prop := t = mk line (off i) (off j).
  Lemma create_covers : forall i t j, suf i line -> i = t ++ j -> covers i j (create_tag line i t).
  Proof. intros i t j H ->. unfold covers, create_tag. now rewrite <- off_app. Qed.
  Lemma covers_s : forall i j t, covers i j t -> tg_s t = N.of_nat (off i).
  Proof. intros i j t ->. reflexivity. Qed.
  Lemma covers_e : forall i j t, covers i j t -> tg_e t = N.of_nat (off j).
  Proof. intros i j t ->. reflexivity. Qed.
  Lemma set_start_covers : forall i j i' t, covers i j t -> covers i' j (set_start line t (N.of_nat (off i'))).
  Proof. intros i j i' t H. unfold covers, set_start. now rewrite (covers_e _ _ _ H), !Nat2N.id. Qed.
  Lemma set_end_covers : forall i j j' t, covers i j t -> covers i j' (set_end line t (N.of_nat (off j'))).
  Proof. intros i j j' t H. unfold covers, set_end. now rewrite (covers_s _ _ _ H), !Nat2N.id. Qed.
  Lemma covers_sp : forall i j t lo hi, covers i j t -> suf i line -> suf j i -> lo <= off i -> off j <= hi -> spt lo hi t.
  Proof. intros i j t lo hi -> A B C D. now apply mk_sp. Qed.

  (** ** Small parsers *)
  (** [P] holds of the value for the input taken; at least one character is taken when [n]. *)
  Definition good {A} (n : bool) (P : str -> str -> A -> Prop) (i : str) (r : pres A) : Prop :=
    match r with
    | POk j a => suf j i /\ (if n then length j < length i else True) /\ P i j a
    | PFuel => False
    | _ => True
    end.
  Lemma good_bind : forall A B (n : bool) (P : str -> str -> A -> Prop) (Q : str -> str -> B -> Prop) i (r : pres A) f,
    good n P i r -> (forall j a, suf j i -> (if n then length j < length i else True) -> P i j a -> good true Q i (f j a)) -> good true Q i (pbind r f).
  Proof. intros A B n P Q i r f H K. destruct r; cbn in *; try tauto. apply K; tauto. Qed.
  Lemma good_bind0 : forall A B (n : bool) (P : str -> str -> A -> Prop) (Q : str -> str -> B -> Prop) i (r : pres A) f,
    good n P i r -> (forall j a, suf j i -> (if n then length j < length i else True) -> P i j a -> good false Q i (f j a)) -> good false Q i (pbind r f).
  Proof. intros A B n P Q i r f H K. destruct r; cbn in *; try tauto. apply K; tauto. Qed.
  Lemma good_cut : forall A n P i (r : pres A), good n P i r -> good n P i (cut r).
  Proof. intros A n P i r H. destruct r; cbn in *; auto. Qed.
  Lemma good_weak : forall A n P i (r : pres A), good n P i r -> good false P i r.
  Proof. intros A n P i r H. destruct r; cbn in *; tauto. Qed.
  Lemma good_imp : forall A n (P Q : str -> str -> A -> Prop) i (r : pres A),
    (forall j a, suf j i -> P i j a -> Q i j a) -> good n P i r -> good n Q i r.
  Proof. intros A n P Q i r K H. destruct r; cbn in *; try tauto. destruct H as (A1 & A2 & A3). auto. Qed.

  Lemma pchar_good : forall c i, good true (fun i j _ => i = c :: j) i (pchar c i).
  Proof.
    intros c [|x i]; cbn; [auto|]. destruct (N.eqb_spec x c) as [->|n]; cbn; [|auto]. split; [apply suf_cons|]. split; [lia|reflexivity].
  Qed.
  Lemma ptag_good : forall p i, p <> [] -> good true (fun i j t => t = p /\ i = p ++ j) i (ptag p i).
  Proof.
    intros p i Hp. unfold ptag. destruct (strip p i) as [j|] eqn:E; cbn; [|auto]. apply strip_app in E. subst. split; [now exists p|].
    split; [|auto]. rewrite app_length. destruct p; [congruence|cbn; lia].
  Qed.
  Lemma span1_good : forall p i, good true (fun i j t => i = t ++ j) i (span1 p i).
  Proof.
    intros p i. unfold span1. destruct (span p i) as [a b] eqn:E. apply span_app in E. destruct a as [|c a]; cbn; [auto|]. subst.
    split; [now exists (c :: a)|]. split; [rewrite app_length; cbn; lia|reflexivity].
  Qed.
  Lemma op_ident_good : forall i, suf i line -> good true covers i (op_ident k line i).
  Proof.
    intros i H. unfold op_ident. destruct i as [|c i]; [exact I|]. destruct (alpha k c); [|exact I].
    eapply good_bind; [apply span1_good|]. intros j t S L E. cbv beta in E. cbn. split; [auto|]. split; [auto|]. now apply create_covers.
  Qed.

  Definition cov_sp (i j : str) (t : tag) : Prop := spt (off i) (off j) t.
  Lemma covers_cov : forall i j t, suf i line -> suf j i -> covers i j t -> cov_sp i j t.
  Proof. intros i j t A B C. eapply covers_sp; eauto. Qed.
  Definition opt_sp (i j : str) (o : option tag) : Prop := sp_opt line (off i) (off j) o /\ forall t, o = Some t -> tg_e t = N.of_nat (off j).
  Lemma opt_ty_good : forall i, suf i line -> good false opt_sp i (opt_ty k line i).
  Proof.
    intros i H. unfold opt_ty. assert (G := pchar_good 58 i). destruct (pchar 58 i) as [j u| | |]; cbn [pbind popt].
    - destruct G as (S & L & E). assert (Hj : suf j line) by (eapply suf_trans; eauto). assert (G := op_ident_good j Hj).
      destruct (op_ident k line j) as [j' t| | |]; cbn in *; auto. destruct G as (S' & L' & C). split; [eapply suf_trans; eauto|]. split; [auto|].
      split; [|intros t0 E0; injection E0 as <-; exact (covers_e _ _ _ C)].
      eapply covers_sp; eauto. now apply off_suf.
    - cbn. split; [apply suf_refl|]. split; [auto|]. split; [cbn; lia|intros t E; discriminate].
    - exact I.
    - destruct G.
  Qed.

  Lemma alt_good : forall l i, (forall p, In p l -> p <> []) -> good true (fun i j t => i = t ++ j) i (alt_tags l i).
  Proof.
    induction l as [|p l IH]; intros i H; cbn; [auto|]. assert (G := ptag_good p i). destruct (ptag p i) as [j t| | |].
    - destruct G as (A & B & C & D); [apply H; now left|]. subst. cbn. auto.
    - apply IH. intros q Iq. apply H. now right.
    - exact I.
    - apply G. apply H; now left.
  Qed.
  Lemma spec_op_good : forall i, good true (fun i j t => i = t ++ j) i (spec_op i).
  Proof. intros i. apply alt_good. intros p Hp. cbn in Hp. repeat (destruct Hp as [<-|Hp]; [discriminate|]). destruct Hp. Qed.

  Lemma chain_good : forall fuel i0 i t, suf i0 line -> suf i i0 -> covers i0 i t ->
    exists i1, suf i1 i0 /\ suf (fst (chain k line fuel i t)) i /\ suf (fst (chain k line fuel i t)) i1 /\ covers i1 (fst (chain k line fuel i t)) (snd (chain k line fuel i t)).
  Proof.
    induction fuel as [|fuel IH]; intros i0 i t H S C; cbn [chain].
    - exists i0. cbn. split; [apply suf_refl|]. split; [apply suf_refl|]. auto.
    - assert (G := ptag_good (lit "::") i). destruct (ptag (lit "::") i) as [j u| | |]; cbn [pbind].
      + destruct G as (S1 & _ & _); [discriminate|]. assert (Hj : suf j line) by (exact (suf_trans _ _ _ S1 (suf_trans _ _ _ S H))).
        assert (G := op_ident_good j Hj). destruct (op_ident k line j) as [j' t'| | |].
        * destruct G as (S2 & _ & C2). destruct (IH j j' t' Hj S2 C2) as (i1 & A & B & D & E). exists i1. split; [exact (suf_trans _ _ _ A (suf_trans _ _ _ S1 S))|].
          split; [exact (suf_trans _ _ _ B (suf_trans _ _ _ S2 S1))|]. auto.
        * exists i0. cbn. split; [apply suf_refl|]. split; [apply suf_refl|]. auto.
        * exists i0. cbn. split; [apply suf_refl|]. split; [apply suf_refl|]. auto.
        * exists i0. cbn. split; [apply suf_refl|]. split; [apply suf_refl|]. auto.
      + exists i0. cbn. split; [apply suf_refl|]. split; [apply suf_refl|]. auto.
      + exists i0. cbn. split; [apply suf_refl|]. split; [apply suf_refl|]. auto.
      + exists i0. cbn. split; [apply suf_refl|]. split; [apply suf_refl|]. auto.
  Qed.
  Lemma tmp_op_good : forall i, suf i line -> good true covers i (tmp_op k line i).
  Proof.
    intros i H. unfold tmp_op. eapply good_bind; [now apply op_ident_good|]. intros j t S L C.
    assert (G := chain_good (length j) i j t H S C). destruct (chain k line (length j) j t) as [j' t']. cbn [fst snd] in G.
    destruct G as (i1 & A & B & D & E). cbn. split; [eapply suf_trans; eauto|]. split; [apply suf_len in B; cbn in L; lia|].
    rewrite (covers_s _ _ _ C). eapply set_start_covers; eauto.
  Qed.

  Lemma sp_tags_snoc : forall ts lo m hi t, sp_tags line lo m ts -> spt m hi t -> sp_tags line lo hi (ts ++ [t]).
  Proof.
    induction ts as [|x ts IH]; intros lo m hi t H K; inversion H; subst; cbn.
    - eapply sp_tags_cons; [|apply sp_tags_nil; apply le_n]. unfold sp_tag in *. destruct K as (A & B & C & D). repeat split; auto. lia.
    - eapply sp_tags_cons; eauto.
  Qed.
  Definition tags_sp (i j : str) (ts : list tag) : Prop := sp_tags line (off i) (off j) ts /\ ts <> [].
  Lemma sep_list_good : forall fuel i0 i ts, suf i0 line -> suf i i0 -> tags_sp i0 i ts ->
    suf (fst (sep_list k line fuel i ts)) i /\ tags_sp i0 (fst (sep_list k line fuel i ts)) (snd (sep_list k line fuel i ts)).
  Proof.
    induction fuel as [|fuel IH]; intros i0 i ts H S C; cbn [sep_list]; [cbn; split; [apply suf_refl|auto]|].
    assert (G := ptag_good (lit "/") i). destruct (ptag (lit "/") i) as [j u| | |]; cbn [pbind]; try (cbn; split; [apply suf_refl|auto]; fail).
    destruct G as (S1 & _ & _); [discriminate|]. assert (Hj : suf j line) by (exact (suf_trans _ _ _ S1 (suf_trans _ _ _ S H))).
    assert (Hi : suf i line) by (eapply suf_trans; eauto).
    assert (G := tmp_op_good j Hj). destruct (tmp_op k line j) as [j' t'| | |]; try (cbn; split; [apply suf_refl|auto]; fail).
    destruct G as (S2 & _ & C2). destruct (IH i0 j' (ts ++ [t'])) as [A B]; auto.
    - exact (suf_trans _ _ _ S2 (suf_trans _ _ _ S1 S)).
    - split; [|destruct ts; discriminate]. eapply sp_tags_snoc; [apply C|]. eapply covers_sp; eauto. now apply off_suf.
    - split; [|exact B]. exact (suf_trans _ _ _ A (suf_trans _ _ _ S2 S1)).
  Qed.

  Lemma path_good : forall i, suf i line -> good true (fun i j p => sp_tags line (off i) (off j) (fst p) /\ fst p <> []) i (path k line i).
  Proof.
    intros i H. unfold path.
    assert (X : exists i' r, (match strip (lit "/") i with Some j => (j, true) | None => (i, false) end) = (i', r) /\ suf i' i).
    { destruct (strip (lit "/") i) as [j|] eqn:E; do 2 eexists; (split; [reflexivity|]); [|apply suf_refl]. apply strip_app in E. subst. now exists (lit "/"). }
    destruct X as (i' & r & -> & S). assert (Hi : suf i' line) by (eapply suf_trans; eauto).
    assert (G := tmp_op_good i' Hi). destruct (tmp_op k line i') as [j t| | |]; try (cbn in *; tauto). destruct G as (S1 & L1 & C1). cbn [pbind].
    assert (T : tags_sp i' j [t]).
    { split; [|discriminate]. eapply sp_tags_cons; [|apply sp_tags_nil, le_n]. eapply covers_sp; eauto. }
    assert (G := sep_list_good (length j) i' j [t] Hi S1 T). destruct (sep_list k line (length j) j [t]) as [j' cs]. cbn [fst snd] in G. destruct G as [A [B B']].
    destruct (starts 47 j'); cbn; [auto|]. split; [exact (suf_trans _ _ _ A (suf_trans _ _ _ S1 S))|]. split.
    - apply suf_len in A. apply suf_len in S. cbn in L1. lia.
    - split; [|auto]. assert (L : off i <= off i') by now apply off_suf. clear -B L. inversion B; subst; [apply sp_tags_nil; lia|].
      eapply sp_tags_cons; [|eauto]. destruct H as (X & Y & Z). split; [lia|auto].
  Qed.
  Definition op_sp (i j : str) (o : opref) : Prop := sp_op line (off i) (off j) o.
  Lemma op_good : forall i, suf i line -> good true op_sp i (op k line i).
  Proof.
    intros i H. unfold op. assert (G := spec_op_good i).
    assert (P : good true op_sp i (let* (j, p) := path k line i in POk j match fst p with [t] => OpSingle t | cs => OpPath cs 0 (snd p) end)).
    { eapply good_bind; [now apply path_good|]. intros j p S L [B B']. cbn. split; [auto|]. split; [auto|]. unfold op_sp.
      destruct (fst p) as [|t [|t' ts]]; cbn; [congruence| |exact B]. inversion B as [|? ? ? ? ? B1 B2]; subst. inversion B2; subst.
      destruct B1 as (X & Y & Z & W). repeat split; auto. lia. }
    destruct (spec_op i) as [j t| | |]; auto. destruct G as (S & L & E). cbn. split; [auto|]. split; [auto|].
    eapply covers_sp; [apply create_covers| | | |]; eauto.
  Qed.

  Lemma token_good : forall i, good true (fun i j t => i = t ++ j) i (token k i).
  Proof. intros i. apply span1_good. Qed.
  Lemma quoted_good : forall q i, good true (fun i j t => i = q :: t ++ q :: j) i (quoted q i).
  Proof.
    intros q i. unfold quoted. eapply good_bind; [apply pchar_good|]. intros j u S L E. cbv beta in E. destruct (span _ j) as [t j'] eqn:Es. apply span_app in Es.
    assert (G := pchar_good q j'). destruct (pchar q j') as [j'' u'| | |]; cbn in *; auto. destruct G as (S2 & L2 & E2). subst.
    split; [exists (q :: t ++ [q]); cbn; now rewrite <- app_assoc|]. split; [cbn; rewrite app_length; cbn; lia|reflexivity].
  Qed.
  Lemma off_cons : forall c i, suf (c :: i) line -> off (c :: i) <= off i.
  Proof. intros c i H. apply off_suf; [auto|apply suf_cons]. Qed.
  Lemma ident_good : forall i, suf i line -> good true cov_sp i (ident k line i).
  Proof.
    intros i H. unfold ident. destruct (starts 58 i); [exact I|].
    assert (Q : forall q, good true cov_sp i (let* (j, t) := quoted q i in POk j (create_tag line (tl i) t))).
    { intros q. eapply good_bind; [apply quoted_good|]. intros j t S L E. cbv beta in E. cbn. split; [auto|]. split; [auto|]. subst i. cbn [tl].
      assert (H' : suf (t ++ q :: j) line) by (eapply suf_trans; [apply suf_cons|exact H]).
      eapply covers_sp with (i := t ++ q :: j) (j := q :: j); [now apply create_covers|auto|now exists t| |].
      - apply (off_cons q). exact H.
      - apply (off_cons q). eapply suf_trans; [|exact H']. now exists t. }
    destruct (starts 34 i); [apply Q|]. destruct (starts 39 i); [apply Q|].
    eapply good_bind; [apply token_good|]. intros j t S L E. cbv beta in E. cbn. split; [auto|]. split; [auto|]. eapply covers_sp; [apply create_covers| | | |]; eauto.
  Qed.
  Lemma var_good : forall i, suf i line -> good true (fun i j t => exists i', i = 36%N :: i' /\ covers i' j t /\ suf j i') i (var k line i).
  Proof.
    intros i H. unfold var. eapply good_bind; [apply pchar_good|]. intros j u S L E. cbv beta in E.
    assert (Hj : suf j line) by (eapply suf_trans; eauto). assert (G := op_ident_good j Hj).
    destruct (op_ident k line j) as [j' t| | |]; cbn in *; auto. destruct G as (S' & L' & C). split; [eapply suf_trans; eauto|]. split; [lia|]. exists j. auto.
  Qed.
  Lemma flag_good : forall i, suf i line -> good true cov_sp i (flag k line i).
  Proof.
    intros i H. unfold flag. eapply good_bind; [apply ptag_good; discriminate|]. intros j u S L E. cbv beta in E.
    assert (Hj : suf j line) by (eapply suf_trans; eauto). assert (G := ident_good j Hj).
    destruct (ident k line j) as [j' t| | |]; cbn in *; auto. destruct G as (S' & L' & C). split; [eapply suf_trans; eauto|]. split; [lia|].
    unfold cov_sp, sp_tag in *. assert (X := off_suf i j H S). repeat split; try tauto. lia.
  Qed.
  Lemma num_good : forall i, suf i line -> good true (fun i j nt => cov_sp i j (snd nt)) i (num k line i).
  Proof.
    intros i H. unfold num. eapply good_bind; [apply token_good|]. intros j t S L E. cbv beta in E. destruct (number k t); cbn; [|auto].
    split; [auto|]. split; [auto|]. eapply covers_sp; [apply create_covers| | | |]; eauto.
  Qed.
  Lemma rhs_good : forall i, suf i line -> good true cov_sp i (rhs_ident k line i).
  Proof.
    intros i H. unfold rhs_ident. destruct (starts 39 i || starts 34 i); [now apply ident_good|].
    eapply good_imp; [|now apply op_ident_good]. intros j t S C. now apply covers_cov.
  Qed.


  (** ** Boundaries of characters *)
  Definition bd (p : nat) : Prop := exists i, suf i line /\ p = off i.
  Lemma drop_inv : forall s n t, drop_bytes n s = Some t -> exists p, s = p ++ t /\ byte_len p = n.
  Proof.
    induction s as [|c s IH]; intros n t H.
    - destruct n; [|discriminate]. injection H as <-. now exists [].
    - destruct n as [|n]; [injection H as <-; now exists []|]. cbn [drop_bytes] in H. destruct (Nat.leb_spec (len_utf8 c) (S n)); [|discriminate].
      apply IH in H. destruct H as (p & -> & E). exists (c :: p). split; [reflexivity|]. cbn. lia.
  Qed.
  Lemma take_inv : forall s n t, take_bytes n s = Some t -> exists r, s = t ++ r /\ byte_len t = n.
  Proof.
    induction s as [|c s IH]; intros n t H.
    - destruct n; [|discriminate]. injection H as <-. now exists [].
    - destruct n as [|n]; [injection H as <-; now exists (c :: s)|]. cbn [take_bytes] in H. destruct (Nat.leb_spec (len_utf8 c) (S n)); [|discriminate].
      destruct (take_bytes (S n - len_utf8 c) s) as [t'|] eqn:E; [|discriminate]. injection H as <-. apply IH in E. destruct E as (r & -> & E).
      exists r. split; [reflexivity|]. cbn. lia.
  Qed.
  Lemma slice_bd : forall s e t, slice_bytes s e line = Ok t -> bd s /\ bd e.
  Proof.
    intros s e t H. unfold slice_bytes in H. destruct (Nat.leb_spec s e); [|discriminate]. destruct (drop_bytes s line) as [r|] eqn:E1; [|discriminate].
    destruct (take_bytes (e - s) r) as [t'|] eqn:E2; [|discriminate]. apply drop_inv in E1. destruct E1 as (p & E1 & L1). apply take_inv in E2.
    destruct E2 as (q & -> & L2). split.
    - exists (t' ++ q). split; [now exists p|]. unfold offset. rewrite E1, !byte_len_app. lia.
    - exists q. split; [exists (p ++ t'); now rewrite <- app_assoc|]. unfold offset. rewrite E1, !byte_len_app. lia.
  Qed.
  Lemma suf_total : forall l (i j : str), suf i l -> suf j l -> off i <= off j -> suf l line -> suf j i.
  Proof.
    intros l i j (p & ->) (q & E) L H. revert q j E L. induction p as [|c p IH]; intros q j E L.
    - destruct q as [|c' q]; cbn in E; [subst; apply suf_refl|]. subst i. now exists (c' :: q).
    - destruct q as [|c' q]; cbn in E.
      + subst j. exfalso. assert (X : off i = off ((c :: p) ++ i) + byte_len (c :: p)) by now apply off_app. cbn [byte_len] in X.
        assert (Y := len_utf8_pos c). cbn [app] in *. lia.
      + injection E as -> E. apply (fun X => IH X q j); auto. eapply suf_trans; [|exact H]. exists [c']. reflexivity.
  Qed.
  Lemma mk_bd : forall s e lo hi, bd s -> bd e -> s <= e -> lo <= s -> e <= hi -> spt lo hi (mk line s e).
  Proof.
    intros s e lo hi (i & Hi & ->) (j & Hj & ->) L1 L2 L3. apply mk_sp; auto. apply (suf_total line); auto. apply suf_refl.
  Qed.
  Lemma spt_bd : forall lo hi t, spt lo hi t -> bd (N.to_nat (tg_s t)) /\ bd (N.to_nat (tg_e t)).
  Proof. intros lo hi t (_ & _ & _ & H). eapply slice_bd; eauto. Qed.
  Lemma bd_off : forall i, suf i line -> bd (off i).
  Proof. intros i H. now exists i. Qed.

  Lemma sp_tag_wide : forall lo hi lo' hi' t, spt lo hi t -> lo' <= lo -> hi <= hi' -> spt lo' hi' t.
  Proof. intros lo hi lo' hi' t (A & B & C & D) L H. repeat split; auto; lia. Qed.
  Lemma sp_arg_wide : forall lo hi lo' hi' a, sp_arg line lo hi a -> lo' <= lo -> hi <= hi' -> sp_arg line lo' hi' a.
  Proof.
    intros lo hi lo' hi' a A L H. inversion A as [? ? t T|? ? z t T|? ? c t T|? ? t T|? ? e E]; subst; constructor; try (exact (sp_tag_wide _ _ _ _ _ T L H)).
    inversion E as [? m ? t bs out T N B O]; subst. apply sp_expr_intro with (m := m); auto. exact (sp_tag_wide _ _ _ _ _ T L H).
  Qed.
  Lemma sp_arg_tag : forall lo hi a, sp_arg line lo hi a -> spt lo hi (arg_tag a).
  Proof. intros lo hi a A. inversion A; subst; auto. inversion H; subst; auto. Qed.
  Lemma sp_tag_narrow : forall lo hi t, spt lo hi t -> spt (N.to_nat (tg_s t)) hi t.
  Proof. intros lo hi t (A & B & C & D). repeat split; auto. Qed.
  Lemma sp_arg_narrow : forall lo hi a, sp_arg line lo hi a -> sp_arg line (N.to_nat (tg_s (arg_tag a))) hi a.
  Proof.
    intros lo hi a A. inversion A; subst; constructor; try (eapply sp_tag_narrow; eauto; fail).
    inversion H; subst. econstructor; eauto. eapply sp_tag_narrow; eauto.
  Qed.

  (** An argument; a variable is preceded by its mark. *)
  Definition arg_sp (i j : str) (a : arg) : Prop :=
    sp_arg line (off i) (off j) a /\
    match a with AVar t => bd (N.to_nat (tg_s t - 1)) /\ off i <= N.to_nat (tg_s t - 1) | _ => True end.

  Lemma dot_sp : forall i0 i j j2 j3 lhs r out, suf i0 line -> suf j3 line -> arg_sp i0 i lhs -> off i <= off j ->
    spt (off i) (off j) (create_tag line i (lit ".")) -> cov_sp j j2 r -> opt_sp j2 j3 out -> off j2 <= off j3 ->
    arg_sp i0 j3 (AExpr (Expr (dot_tag line lhs r out) [BDot (create_tag line i (lit ".")) lhs r out] None)).
  Proof.
    intros i0 i j j2 j3 lhs r out H0 H3 [A AV] Lij D R [O OE] L23. split; [|exact I]. constructor.
    set (s := N.to_nat (match lhs with AVar _ => (tg_s (arg_tag lhs) - 1)%N | _ => tg_s (arg_tag lhs) end)).
    set (e := N.to_nat (match out with Some o => tg_e o | None => tg_e r end)).
    assert (AT := sp_arg_tag _ _ _ A). destruct (spt_bd _ _ _ AT) as [Bs _]. destruct (spt_bd _ _ _ R) as [_ Be].
    assert (S1 : bd s /\ off i0 <= s /\ s <= N.to_nat (tg_s (arg_tag lhs))).
    { subst s. destruct AT as (X & Y & Z & _). destruct lhs; cbn [arg_tag] in *; try (split; [auto|split; lia]; fail). destruct AV as [V1 V2]. split; [auto|]. split; [lia|]. lia. }
    destruct S1 as (S1 & S2 & S3). destruct R as (R1 & R2 & R3 & R4). destruct AT as (T1 & T2 & T3 & T4).
    assert (E1 : bd e /\ N.to_nat (tg_e r) <= e /\ e <= off j3).
    { subst e. destruct out as [o|]; [|split; [auto|split; lia]]. cbn in O. destruct (spt_bd _ _ _ O) as [_ Bo]. destruct O as (O1 & O2 & O3 & O4). split; [auto|split; lia]. }
    destruct E1 as (E1 & E2 & E3).
    assert (M : spt (off i0) (off j3) (mk line s e)) by (apply mk_bd; auto; lia).
    apply sp_expr_intro with (m := e); [exact M|discriminate| |].
    - change (dot_tag line lhs r out) with (mk line s e). rewrite mk_s. change [BDot (create_tag line i (lit ".")) lhs r out] with ([] ++ [BDot (create_tag line i (lit ".")) lhs r out]).
      apply sp_blocks_snoc with (m := s); [apply sp_blocks_nil, le_n|].
      apply sp_dot with (a := off i) (b := off j) (c := N.to_nat (tg_e r)).
      + eapply sp_arg_wide; [exact (sp_arg_narrow _ _ _ A)|auto|apply le_n].
      + exact D.
      + repeat split; auto.
      + subst e. destruct out as [o|]; cbn; [|apply le_n]. destruct O as (O1 & O2 & O3 & O4). repeat split; auto. lia.
    - change (dot_tag line lhs r out) with (mk line s e). rewrite mk_e. cbn. apply le_n.
  Qed.

  Lemma infix_good : forall fuel i0 i lhs, suf i0 line -> suf i i0 -> length i <= fuel -> arg_sp i0 i lhs ->
    match infix k line fuel i lhs with
    | POk j a => suf j i /\ sp_arg line (off i0) (off j) a
    | PFuel => False
    | _ => True
    end.
  Proof.
    induction fuel as [|fuel IH]; intros i0 i lhs H0 S L A; cbn [infix].
    - destruct i; [|cbn in L; lia]. cbn. split; [apply suf_refl|apply A].
    - destruct (starts 46 i) eqn:St; [|split; [apply suf_refl|apply A]].
      assert (Hi : suf i line) by (eapply suf_trans; eauto).
      assert (G := ptag_good (lit ".") i). destruct (ptag (lit ".") i) as [j u| | |]; cbn [pbind]; auto; [|now apply G].
      destruct G as (S1 & L1 & -> & E1); [discriminate|]. assert (Hj : suf j line) by (eapply suf_trans; eauto).
      assert (G := good_cut _ _ _ _ _ (rhs_good j Hj)). destruct (cut (rhs_ident k line j)) as [j2 r| | |]; cbn [pbind]; [|exact I|exact I|exact G].
      destruct G as (S2 & L2 & C2). assert (Hj2 : suf j2 line) by (eapply suf_trans; eauto).
      assert (G := opt_ty_good j2 Hj2). destruct (opt_ty k line j2) as [j3 out| | |]; cbn [pbind]; [|exact I|exact I|exact G].
      destruct G as (S3 & _ & C3). assert (S30 : suf j3 i0) by exact (suf_trans _ _ _ S3 (suf_trans _ _ _ S2 (suf_trans _ _ _ S1 S))).
      assert (H3 : suf j3 line) by (eapply suf_trans; eauto).
      assert (DOT : spt (off i) (off j) (create_tag line i (lit "."))) by (eapply covers_sp; [apply create_covers| | | |]; eauto).
      match goal with |- match infix _ _ _ _ ?a with _ => _ end => assert (X := IH i0 j3 a H0 S30);
        destruct (infix k line fuel j3 a) as [j4 a4| | |] end; auto.
      + destruct X as [X1 X2].
        * apply suf_len in S2, S3. lia.
        * apply (dot_sp i0 i j j2 j3 lhs r out); auto; apply off_suf; auto.
        * split; [|auto]. exact (suf_trans _ _ _ X1 (suf_trans _ _ _ S3 (suf_trans _ _ _ S2 S1))).
      + apply X.
        * apply suf_len in S2, S3. lia.
        * apply (dot_sp i0 i j j2 j3 lhs r out); auto; apply off_suf; auto.
  Qed.

  (** ** The whole parser *)
  Definition expr_sp (i j : str) (e : expr) : Prop :=
    sp_expr line (off i) (off j) e /\ ex_out e = None /\ covers i j (ex_tag e).
  Definition block_sp (i j : str) (b : block) : Prop := sp_block line (off i) (off j) b.
  Definition term_sp (i j : str) (t : term) : Prop := sp_term line (off i) (off j) t.

  Lemma ws_good : forall A (P : str -> str -> A -> Prop) (p : str -> pres A) i, suf i line ->
    (forall i, suf i line -> good true P i (p i)) ->
    (forall i i' j j' a, suf i line -> suf i' i -> suf j i' -> suf j' j -> P i' j a -> P i j' a) -> good true P i (ws p i).
  Proof.
    intros A P p i H G W. unfold ws. assert (S := suf_skip i). assert (G' := G (skip i) (suf_trans _ _ _ S H)).
    destruct (p (skip i)) as [j a| | |]; cbn in *; auto. destruct G' as (S1 & L1 & Pa). assert (Sj := suf_skip j).
    split; [exact (suf_trans _ _ _ Sj (suf_trans _ _ _ S1 S))|]. split; [apply suf_len in S, Sj; lia|]. eapply W; eauto.
  Qed.
  (** As above for a parser that is only good on inputs of some length. *)
  Lemma ws_good' : forall A (P : str -> str -> A -> Prop) (p : str -> pres A) i, suf i line ->
    (forall i', suf i' i -> good true P i' (p i')) ->
    (forall i i' j j' a, suf i line -> suf i' i -> suf j i' -> suf j' j -> P i' j a -> P i j' a) -> good true P i (ws p i).
  Proof.
    intros A P p i H G W. unfold ws. assert (S := suf_skip i). assert (G' := G (skip i) S).
    destruct (p (skip i)) as [j a| | |]; cbn in *; auto. destruct G' as (S1 & L1 & Pa). assert (Sj := suf_skip j).
    split; [exact (suf_trans _ _ _ Sj (suf_trans _ _ _ S1 S))|]. split; [apply suf_len in S, Sj; lia|]. eapply W; eauto.
  Qed.
  Lemma sp_opt_wide : forall lo hi lo' hi' o, sp_opt line lo hi o -> lo' <= lo -> hi <= hi' -> sp_opt line lo' hi' o.
  Proof. intros lo hi lo' hi' [t|] A L H; cbn in *; [eapply sp_tag_wide; eauto|lia]. Qed.
  Lemma sp_term_wide : forall lo hi lo' hi' t, sp_term line lo hi t -> lo' <= lo -> hi <= hi' -> sp_term line lo' hi' t.
  Proof.
    intros lo hi lo' hi' t A L H. inversion A; subst; constructor.
    - eapply sp_arg_wide; [eassumption|auto|auto].
    - eapply sp_tag_wide; [eassumption|auto|auto].
  Qed.
  Lemma sp_terms_wide : forall lo hi hi' ts, sp_terms line lo hi ts -> hi <= hi' -> sp_terms line lo hi' ts.
  Proof.
    intros lo hi hi' ts A H. inversion A; subst; [constructor; lia|]. econstructor; eauto. eapply sp_term_wide; eauto.
  Qed.
  Lemma sp_block_wide : forall lo hi lo' hi' b, sp_block line lo hi b -> lo' <= lo -> hi <= hi' -> sp_block line lo' hi' b.
  Proof.
    intros lo hi lo' hi' b A L H. inversion A; subst.
    - econstructor; [eapply sp_opt_wide; eauto|eauto|eauto|eapply sp_terms_wide; eauto].
    - econstructor; [eapply sp_arg_wide; eauto|eauto|eauto|eapply sp_opt_wide; eauto].
  Qed.
  Lemma sp_blocks_wide : forall lo hi lo' hi' bs, sp_blocks line lo hi bs -> lo' <= lo -> hi <= hi' -> sp_blocks line lo' hi' bs.
  Proof.
    intros lo hi lo' hi' bs. revert hi hi'. induction bs as [|b bs IH] using rev_ind; intros hi hi' A L H.
    - inversion A; subst; [constructor; lia|]. destruct bs; discriminate.
    - inversion A as [|? m ? bs' b' A1 A2]; subst; [destruct bs; discriminate|]. apply app_inj_tail in H2. destruct H2 as [-> ->].
      eapply sp_blocks_snoc; [eapply IH; [exact A1|auto|apply le_n]|]. eapply sp_block_wide; [exact A2|apply le_n|auto].
  Qed.
  Lemma block_sp_wide : forall i i' j j' b, suf i line -> suf i' i -> suf j i' -> suf j' j -> block_sp i' j b -> block_sp i j' b.
  Proof.
    intros i i' j j' b H A B C D. eapply sp_block_wide; [exact D|now apply off_suf|]. apply off_suf; [|auto]. exact (suf_trans _ _ _ B (suf_trans _ _ _ A H)).
  Qed.
  Lemma term_sp_wide : forall i i' j j' t, suf i line -> suf i' i -> suf j i' -> suf j' j -> term_sp i' j t -> term_sp i j' t.
  Proof.
    intros i i' j j' b H A B C D. eapply sp_term_wide; [exact D|now apply off_suf|]. apply off_suf; [|auto]. exact (suf_trans _ _ _ B (suf_trans _ _ _ A H)).
  Qed.
  Lemma sp_op_wide : forall lo hi lo' hi' o, sp_op line lo hi o -> lo' <= lo -> hi <= hi' -> sp_op line lo' hi' o.
  Proof.
    intros lo hi lo' hi' [t|cs x r] A L H; cbn in *; [eapply sp_tag_wide; eauto|].
    revert lo lo' A L. induction cs as [|t cs IH]; intros lo lo' A L; inversion A; subst; [constructor; lia|].
    econstructor; [eapply sp_tag_wide; [eauto|auto|apply le_n]|]. eapply IH; eauto.
  Qed.

  Definition all_good (f : nat) : Prop :=
    (forall i, suf i line -> 4 * length i + 2 < f -> good true expr_sp i (p_expr k line f i)) /\
    (forall i0 i bs, suf i0 line -> suf i i0 -> 4 * length i + 1 < f -> sp_blocks line (off i0) (off i) bs -> bs <> [] ->
       match p_pipes k line f i bs with
       | POk j bs' => suf j i /\ sp_blocks line (off i0) (off j) bs' /\ bs' <> []
       | PFuel => False
       | _ => True
       end) /\
    (forall i, suf i line -> 4 * length i < f -> good true block_sp i (p_block k line f i)) /\
    (forall i0 i ts, suf i0 line -> suf i i0 -> 4 * length i + 3 < f -> sp_terms line (off i0) (off i) ts ->
       match p_terms k line f i ts with
       | POk j ts' => suf j i /\ sp_terms line (off i0) (off j) ts'
       | PFuel => False
       | _ => True
       end) /\
    (forall i, suf i line -> 4 * length i + 2 < f -> good true term_sp i (p_term k line f i)) /\
    (forall i, suf i line -> 4 * length i + 1 < f -> good true arg_sp i (p_arg k line f i)).

  Lemma parse_good : forall f, all_good f.
  Proof.
    induction f as [|f (IHe & IHp & IHb & IHts & IHt & IHa)]; [repeat split; intros; lia|].
    assert (WB : forall i, suf i line -> 4 * length i < f -> good true block_sp i (ws (p_block k line f) i)).
    { intros i H L. apply ws_good'; auto; [|apply block_sp_wide]. intros i' S. apply IHb; [exact (suf_trans _ _ _ S H)|]. apply suf_len in S. lia. }
    split; [|split; [|split; [|split; [|split]]]].
    - (* expr *)
      intros i H L. rewrite p_expr_S. cbv zeta. assert (G := WB i H ltac:(lia)). destruct (ws (p_block k line f) i) as [j b| | |]; cbn [pbind]; try (cbn in *; tauto).
      destruct G as (S & Lj & B). assert (Hj : suf j line) by exact (suf_trans _ _ _ S H).
      assert (B1 : sp_blocks line (off i) (off j) [b]).
      { change [b] with ([] ++ [b]). eapply sp_blocks_snoc; [apply sp_blocks_nil, le_n|]. exact B. }
      assert (G := IHp i j [b] H S ltac:(lia) B1 ltac:(discriminate)). destruct (p_pipes k line f j [b]) as [j1 bs| | |]; cbn [pbind]; try (cbn; tauto).
      destruct G as (S1 & B2 & N2). assert (Hj1 : suf j1 line) by exact (suf_trans _ _ _ S1 Hj).
      assert (FIN : forall j' bs', suf j' j1 -> sp_blocks line (off i) (off j') bs' -> bs' <> [] ->
        good true expr_sp i (POk j' (Expr (set_end line (create_tag line i i) (N.of_nat (off j'))) bs' None))).
      { intros j' bs' S' B' N'. assert (Si : suf j' i) by exact (suf_trans _ _ _ S' (suf_trans _ _ _ S1 S)).
        assert (C : covers i j' (set_end line (create_tag line i i) (N.of_nat (off j')))).
        { eapply set_end_covers with (j := []). apply create_covers; [auto|]. symmetry. apply app_nil_r. }
        cbn. split; [auto|]. split; [apply suf_len in S', S1; lia|]. split; [|split; [reflexivity|exact C]].
        apply sp_expr_intro with (m := off j'); auto.
        - eapply covers_sp; eauto.
        - now rewrite (covers_s _ _ _ C), Nat2N.id.
        - cbn [sp_opt]. now rewrite (covers_e _ _ _ C), Nat2N.id. }
      assert (G := WB j1 Hj1). destruct (ws (p_block k line f) j1) as [j2 b2| | |].
      + destruct G as (S2 & L2 & B3); [apply suf_len in S1; lia|]. apply FIN; auto; [|destruct bs; discriminate]. eapply sp_blocks_snoc; eauto.
      + apply FIN; auto. apply suf_refl.
      + apply FIN; auto. apply suf_refl.
      + destruct G. apply suf_len in S1. lia.
    - (* pipes *)
      intros i0 i bs H0 S L B N. rewrite p_pipes_S. cbv zeta. destruct (starts 124 i) eqn:E; [|split; [apply suf_refl|auto]].
      destruct i as [|c i]; [discriminate|]. cbn [tl]. assert (Hi : suf (c :: i) line) by exact (suf_trans _ _ _ S H0).
      assert (H1 : suf i line) by exact (suf_trans _ _ _ (suf_cons c i) Hi). cbn in L.
      assert (G := WB i H1 ltac:(lia)). destruct (ws (p_block k line f) i) as [j b| | |]; cbn [pbind]; try (cbn in *; tauto).
      destruct G as (S1 & L1 & B1).
      assert (Sj : suf j (c :: i)) by exact (suf_trans _ _ _ S1 (suf_cons c i)).
      assert (G := IHp i0 j (bs ++ [b]) H0 (suf_trans _ _ _ Sj S) ltac:(lia)).
      destruct (p_pipes k line f j (bs ++ [b])) as [j2 bs2| | |]; auto.
      + destruct G as (S2 & B2 & N2); [|destruct bs; discriminate|].
        * eapply sp_blocks_snoc; [exact B|]. eapply sp_block_wide; [exact B1|now apply off_cons|apply le_n].
        * split; [exact (suf_trans _ _ _ S2 Sj)|auto].
      + apply G; [|destruct bs; discriminate]. eapply sp_blocks_snoc; [exact B|]. eapply sp_block_wide; [exact B1|now apply off_cons|apply le_n].
    - (* block *)
      intros i H L. rewrite p_block_S. cbv zeta. assert (G := opt_ty_good i H). destruct (opt_ty k line i) as [i1 ity| | |]; cbn [pbind]; try (cbn in *; tauto).
      destruct G as (S1 & _ & T1 & _). assert (H1 : suf i1 line) by exact (suf_trans _ _ _ S1 H).
      assert (Ss := suf_skip i1). assert (Hs : suf (skip i1) line) by exact (suf_trans _ _ _ Ss H1).
      assert (G := op_good (skip i1) Hs). destruct (op k line (skip i1)) as [i2 o| | |]; cbn [pbind]; try (cbn in *; tauto).
      destruct G as (S2 & L2 & O). assert (H2 : suf i2 line) by exact (suf_trans _ _ _ S2 Hs).
      assert (G := opt_ty_good i2 H2). destruct (opt_ty k line i2) as [i3 oty| | |]; cbn [pbind]; try (cbn in *; tauto).
      destruct G as (S3 & _ & T3 & _). assert (H3 : suf i3 line) by exact (suf_trans _ _ _ S3 H2).
      assert (Len : length i3 < length i) by (apply suf_len in S1, Ss, S3; cbn in L2; lia).
      assert (G := IHts i3 i3 [] H3 (suf_refl _) ltac:(lia) (@sp_terms_nil line _ _ (le_n _))).
      destruct (p_terms k line f i3 []) as [i4 ts| | |]; cbn [pbind]; try (cbn in *; tauto). destruct G as (S4 & T4). cbn.
      split; [exact (suf_trans _ _ _ S4 (suf_trans _ _ _ S3 (suf_trans _ _ _ S2 (suf_trans _ _ _ Ss S1))))|]. split; [apply suf_len in S4; lia|].
      econstructor; [exact T1| |exact T3|exact T4]. eapply sp_op_wide; [exact O|now apply off_suf|apply le_n].
    - (* terms *)
      intros i0 i ts H0 S L B. rewrite p_terms_S. cbv zeta. assert (Hi : suf i line) by exact (suf_trans _ _ _ S H0).
      assert (G : good true term_sp i (ws (p_term k line f) i)).
      { apply ws_good'; auto; [|apply term_sp_wide]. intros i' S'. apply IHt; [exact (suf_trans _ _ _ S' Hi)|]. apply suf_len in S'. lia. }
      destruct (ws (p_term k line f) i) as [j t| | |]; try (cbn in *; tauto); [|split; [apply suf_refl|auto]].
      destruct G as (S1 & L1 & T). destruct (Nat.eqb_spec (length j) (length i)); [exact I|].
      assert (G := IHts i0 j (ts ++ [t]) H0 (suf_trans _ _ _ S1 S)). cbn in L1.
      destruct (p_terms k line f j (ts ++ [t])) as [j2 ts2| | |]; auto.
      + destruct G as (S2 & T2); [lia|eapply sp_terms_snoc; eauto|]. split; [exact (suf_trans _ _ _ S2 S1)|auto].
      + apply G; [lia|eapply sp_terms_snoc; eauto].
    - (* term *)
      intros i H L. rewrite p_term_S. cbv zeta. destruct (strip (lit "--") i).
      + eapply good_bind; [now apply flag_good|]. intros j t S Lj C. cbn in *. split; [auto|]. split; [auto|]. now constructor.
      + assert (G := IHa i H ltac:(lia)). destruct (p_arg k line f i) as [j a| | |]; cbn [pbind]; try (cbn in *; tauto).
        destruct G as (S & Lj & A). assert (G := infix_good (length j) i j a H S (le_n _) A).
        destruct (infix k line (length j) j a) as [j2 a2| | |]; cbn; auto. destruct G as (S2 & A2).
        split; [exact (suf_trans _ _ _ S2 S)|]. split; [apply suf_len in S2; cbn in Lj; lia|]. now constructor.
    - (* arg *)
      intros i H L. rewrite p_arg_S. cbv zeta. destruct (starts 123 i) eqn:E.
      + destruct i as [|c i]; [discriminate|]. cbn in E. apply N.eqb_eq in E. subst c. destruct (empty_braces _); [exact I|].
        cbn [pchar]. rewrite N.eqb_refl. cbn [pbind]. assert (H1 : suf i line) by exact (suf_trans _ _ _ (suf_cons _ _) H). cbn [length] in L.
        assert (Sk := suf_skip i). assert (Hk : suf (skip i) line) by exact (suf_trans _ _ _ Sk H1).
        assert (G := IHe (skip i) Hk). unfold ws at 1. destruct (p_expr k line f (skip i)) as [j e| | |]; try (cbn; tauto);
          [|cbn; apply G; apply suf_len in Sk; lia]. cbn [pbind].
        destruct G as (S1 & L1 & (X1 & X2 & X3)); [apply suf_len in Sk; lia|].
        assert (Sj := suf_skip j). assert (G := pchar_good 125 (skip j)). destruct (pchar 125 (skip j)) as [j2 u| | |]; cbn [pbind cut]; try (cbn in *; tauto).
        destruct G as (S2 & L2 & E2). cbv beta in E2.
        assert (Hj : suf j line) by exact (suf_trans _ _ _ S1 Hk). assert (Hsj : suf (skip j) line) by exact (suf_trans _ _ _ Sj Hj).
        assert (Hj2 : suf j2 line) by exact (suf_trans _ _ _ S2 Hsj).
        assert (G := opt_ty_good j2 Hj2). destruct (opt_ty k line j2) as [j3 out| | |]; cbn [pbind]; try (cbn in *; tauto).
        destruct G as (S3 & _ & T3 & T3').
        assert (Sj3 : suf j3 (123%N :: i)) by exact (suf_trans _ _ _ S3 (suf_trans _ _ _ S2 (suf_trans _ _ _ Sj (suf_trans _ _ _ S1 (suf_trans _ _ _ Sk (suf_cons _ _)))))).
        assert (J : exists c j', j = c :: j' /\ len_utf8 c = 1 /\ suf j2 j').
        { destruct j as [|c j']; [discriminate|]. exists c, j'. split; [reflexivity|]. cbn [skip] in E2. destruct (ms c) eqn:M.
          - split.
            + unfold ms in M. rewrite !orb_true_iff, !N.eqb_eq in M. destruct M as [[[M|M]|M]|M]; subst; reflexivity.
            + apply suf_trans with (skip j'); [rewrite E2; apply suf_cons|apply suf_skip].
          - injection E2 as -> ->. split; [reflexivity|apply suf_refl]. }
        destruct J as (c & j' & -> & Lc & Sj').
        assert (Hj' : suf j' line) by exact (suf_trans _ _ _ (suf_cons _ _) Hj).
        assert (Oj' : off j' = off (c :: j') + 1).
        { assert (Z := off_app [c] j' Hj). cbn [byte_len app] in Z. lia. }
        assert (C0 : covers (123%N :: i) (c :: j') (set_start line (ex_tag e) (tg_s (create_tag line (123%N :: i) (123%N :: i))))).
        { change (tg_s (create_tag line (123%N :: i) (123%N :: i))) with (N.of_nat (off (123%N :: i))). eapply set_start_covers; exact X3. }
        assert (C1 : covers (123%N :: i) j' (set_end line (set_start line (ex_tag e) (tg_s (create_tag line (123%N :: i) (123%N :: i))))
            (tg_e (set_start line (ex_tag e) (tg_s (create_tag line (123%N :: i) (123%N :: i)))) + 1))).
        { rewrite (covers_e _ _ _ C0). replace (N.of_nat (off (c :: j')) + 1)%N with (N.of_nat (off j')) by lia. eapply set_end_covers; exact C0. }
        set (t1 := set_end line (set_start line (ex_tag e) (tg_s (create_tag line (123%N :: i) (123%N :: i)))) (tg_e (set_start line (ex_tag e) (tg_s (create_tag line (123%N :: i) (123%N :: i)))) + 1)) in *.
        assert (C2 : exists j5, suf j5 (123%N :: i) /\ suf j3 j5 /\ suf j5 j' /\ (out = None -> j5 = j') /\ (out <> None -> j5 = j3) /\
           covers (123%N :: i) j5 (match out with Some o => set_end line t1 (tg_e o) | None => t1 end)).
        { assert (Sij : suf j' (123%N :: i)) by exact (suf_trans _ _ _ (suf_cons _ _) (suf_trans _ _ _ S1 (suf_trans _ _ _ Sk (suf_cons _ _)))).
          destruct out as [o|].
          - exists j3. split; [auto|]. split; [apply suf_refl|]. split; [exact (suf_trans _ _ _ S3 Sj')|]. split; [discriminate|]. split; [auto|].
            rewrite (T3' o eq_refl). eapply set_end_covers; exact C1.
          - exists j'. split; [auto|]. split; [exact (suf_trans _ _ _ S3 Sj')|]. split; [apply suf_refl|]. split; [auto|]. split; [congruence|exact C1]. }
        destruct C2 as (j5 & Sa & Sb & Sc & Nn & Ns & C2). cbn [good]. split; [auto|]. split; [apply suf_len in S3, Sj'; apply suf_len in Sk; cbn in *; lia|].
        split; [|exact I]. constructor. destruct e as [et bs eo]. cbn [ex_tag ex_blocks ex_out] in *. inversion X1 as [? m ? ? ? ? Y1 Y2 Y3 Y4]; subst.
        assert (Hj5 : suf j5 line) by exact (suf_trans _ _ _ Sa H).
        apply sp_expr_intro with (m := off (c :: j')); auto.
        * eapply covers_sp; eauto. now apply off_suf.
        * rewrite (covers_s _ _ _ C2), Nat2N.id. cbn [sp_opt] in Y4. rewrite (covers_s _ _ _ X3), Nat2N.id in Y3. rewrite (covers_e _ _ _ X3), Nat2N.id in Y4.
          eapply sp_blocks_wide; [exact Y3| |auto]. apply off_suf; [auto|exact (suf_trans _ _ _ Sk (suf_cons _ _))].
        * rewrite (covers_e _ _ _ C2), Nat2N.id. destruct out as [o|]; cbn [sp_opt] in *.
          -- rewrite (Ns ltac:(discriminate)). eapply sp_tag_wide; [exact T3| |apply le_n].
            apply off_suf; [auto|exact (suf_trans _ _ _ Sj' (suf_cons _ _))].
          -- apply off_suf; [auto|]. exact (suf_trans _ _ _ Sc (suf_cons _ _)).
      + destruct (starts 58 i); [exact I|]. destruct (breakon_s k i); [exact I|]. destruct (starts 36 i) eqn:E36.
        { eapply good_bind; [now apply var_good|]. intros j t S Lj (i' & -> & C & S'). cbn in *. split; [auto|]. split; [auto|].
          assert (H' : suf i' line) by exact (suf_trans _ _ _ (suf_cons _ _) H). split.
          - constructor. eapply covers_sp; eauto. now apply off_cons.
          - assert (Z := off_app [36%N] i' H). cbn in Z. rewrite (covers_s _ _ _ C).
            replace (N.to_nat (N.of_nat (off i') - 1)) with (off (36%N :: i')) by lia. split; [now apply bd_off|apply le_n]. }
        destruct (starts 35 i) eqn:E35.
        { destruct i as [|c i]; [discriminate|]. cbn in E35. apply N.eqb_eq in E35. subst c. cbn [tl].
          assert (H1 : suf i line) by exact (suf_trans _ _ _ (suf_cons _ _) H). assert (G := good_cut _ _ _ _ _ (op_ident_good i H1)).
          destruct (cut (op_ident k line i)) as [j c| | |]; cbn [pbind]; try (cbn in *; tauto). destruct G as (S & Lj & C).
          destruct (byte_len (tg_str c)) as [|[|n]]; try exact I. destruct (tg_str c) as [|ch r]; [exact I|]. cbn.
          split; [exact (suf_trans _ _ _ S (suf_cons _ _))|]. split; [lia|]. split; [|exact I]. constructor.
          assert (Z := off_app [35%N] i H). cbn in Z. rewrite (covers_s _ _ _ C).
          replace (N.of_nat (off i) - 1)%N with (N.of_nat (off (35%N :: i))) by lia.
          eapply covers_sp; [eapply set_start_covers; exact C|auto|exact (suf_trans _ _ _ S (suf_cons _ _))|apply le_n|apply le_n]. }
        assert (G := num_good i H). assert (NEXT : good true arg_sp i (if known_op k line i then
              let* (j, b) := ws (p_block k line f) i in POk j (AExpr (Expr (set_end line (create_tag line i i) (N.of_nat (off j))) [b] None))
            else let* (j, t) := ident k line i in POk j (AIdent t))).
        { destruct (known_op k line i).
          - assert (Gb := WB i H ltac:(lia)). destruct (ws (p_block k line f) i) as [j b| | |]; cbn [pbind]; try (cbn in *; tauto).
            destruct Gb as (S & Lj & B). cbn in Lj |- *. split; [auto|]. split; [auto|]. split; [|exact I]. constructor.
            assert (C : covers i j (set_end line (create_tag line i i) (N.of_nat (off j)))).
            { eapply set_end_covers with (j := []). apply create_covers; [auto|]. symmetry. apply app_nil_r. }
            apply sp_expr_intro with (m := off j); [eapply covers_sp; eauto|discriminate| |].
            + rewrite (covers_s _ _ _ C), Nat2N.id. change [b] with ([] ++ [b]). eapply sp_blocks_snoc; [apply sp_blocks_nil, le_n|]. exact B.
            + cbn [sp_opt]. now rewrite (covers_e _ _ _ C), Nat2N.id.
          - eapply good_bind; [now apply ident_good|]. intros j t S Lj C. cbn in *. split; [auto|]. split; [auto|]. split; [now constructor|exact I]. }
        destruct (num k line i) as [j nt| | |]; auto. destruct G as (S & Lj & C). cbn in Lj |- *. split; [auto|]. split; [auto|]. split; [now constructor|exact I].
  Qed.
End S.
