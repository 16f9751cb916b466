(** The outline of a file. *)
From Coq Require Import String List ZArith NArith Bool Arith Lia.
From Verif Require Import Model.Base Model.Utf Model.Ast Model.Parse Model.File Spec.ParseSpec Spec.FileSpec
  Proofs.ParseSpanProofs Proofs.ParseWriteProofs Proofs.FileSplitProofs Proofs.FileDocProofs.
Import ListNotations.

Section Main.
  Variable k : lang.
  Hypothesis K : sane k.

  (** ** Names *)
  Lemma op_ident_sound : forall line i j t, suf i line -> op_ident k line i = POk j t ->
    i = tg_str t ++ j /\ name k (tg_str t) /\ (forall c j', j = c :: j' -> ~ name_char k c).
  Proof.
    intros line i j t S H. assert (G := op_ident_good k line i S). rewrite H in G. destruct G as (S' & L & C).
    unfold op_ident in H. destruct i as [|c i]; [discriminate|]. destruct (alpha k c) eqn:A; [|discriminate].
    unfold span1 in H. destruct (span (idchar k) (c :: i)) as [a b] eqn:E. assert (E' := E). apply span_app in E. apply span_inv in E' as [F B].
    destruct a as [|x a]; [discriminate|]. cbn in H. injection H as -> Ht.
    assert (T : tg_str t = x :: a) by exact (text line _ _ _ _ S C E). rewrite T. split; [exact E|]. split; [split|].
    - injection E as <- _. eauto.
    - intros y Hy. apply (idchar_in k). now apply (proj1 (forallb_forall _ _) F).
    - intros y j' -> Q. destruct B as [B|(y' & b' & B & I)]; [discriminate|]. injection B as <- _. apply (idchar_in k) in Q. congruence.
  Qed.
  Lemma chain_sound : forall line f i t, suf i line -> exists m, i = m ++ fst (chain k line f i t) /\ (m = [] \/ exists ns, m = lit "::" ++ ns /\ names k ns).
  Proof.
    induction f as [|f IH]; intros i t S; cbn [chain]; [exists []; auto|]. unfold ptag.
    destruct (strip (lit "::") i) as [j|] eqn:E; cbn [pbind]; [|exists []; auto]. apply strip_app in E.
    assert (Sj : suf j line) by (eapply suf_trans; [|exact S]; now exists (lit "::")).
    destruct (op_ident k line j) as [j' t'| | |] eqn:Ei; try (exists []; now auto).
    destruct (op_ident_sound _ _ _ _ Sj Ei) as (Ej & N & _).
    destruct (IH j' t') as (m & Em & Hm); [eapply suf_trans; [|exact Sj]; now exists (tg_str t')|].
    exists (lit "::" ++ tg_str t' ++ m). split; [rewrite <- !app_assoc, <- Em, <- Ej; exact E|]. right. exists (tg_str t' ++ m). split; [reflexivity|].
    destruct Hm as [->|(ns & -> & Hn)]; [rewrite app_nil_r; now apply names_one|now apply names_more].
  Qed.
  Lemma tmp_op_sound : forall line i j t, suf i line -> tmp_op k line i = POk j t -> i = tg_str t ++ j /\ names k (tg_str t).
  Proof.
    intros line i j t S H. assert (G := tmp_op_good k line i S). rewrite H in G. destruct G as (S' & L & C).
    unfold tmp_op in H. destruct (op_ident k line i) as [j1 t1| | |] eqn:Ei; try discriminate. cbn [pbind] in H.
    destruct (op_ident_sound _ _ _ _ S Ei) as (Ej & N & _).
    destruct (chain_sound line (length j1) j1 t1) as (m & Em & Hm); [eapply suf_trans; [|exact S]; now exists (tg_str t1)|].
    destruct (chain k line (length j1) j1 t1) as [j2 t2]. cbn [fst] in Em. injection H as -> Ht.
    assert (T : tg_str t = tg_str t1 ++ m) by (apply (text line i j); auto; rewrite <- app_assoc, <- Em; exact Ej). rewrite T.
    split; [rewrite <- app_assoc, <- Em; exact Ej|]. destruct Hm as [->|(ns & -> & Hn)]; [rewrite app_nil_r; now apply names_one|now apply names_more].
  Qed.
  Lemma sep_list_app : forall line f i acc, exists more, snd (sep_list k line f i acc) = acc ++ more /\ (more = [] -> fst (sep_list k line f i acc) = i).
  Proof.
    induction f as [|f IH]; intros i acc; cbn [sep_list]; [exists []; cbn; split; [now rewrite app_nil_r|auto]|].
    destruct (let* (j, u) := ptag (lit "/") i in tmp_op k line j) as [j t| | |]; try (exists []; cbn; split; [now rewrite app_nil_r|now auto]).
    destruct (IH j (acc ++ [t])) as (more & E & F). exists (t :: more). split; [now rewrite E, <- app_assoc|discriminate].
  Qed.
  Lemma op_sound : forall line i j o t, suf i line -> op k line i = POk j o -> is_op o = Ok (Some t) ->
    exists r, i = tg_str t ++ r /\ (In (tg_str t) symbols \/ names k (tg_str t)).
  Proof.
    intros line i j o t S H O. unfold op in H. destruct (spec_op i) as [j0 p| | |] eqn:Es.
    - injection H as -> <-. cbn in O. injection O as <-. apply alt_inv in Es as [Hp E].
      assert (T : tg_str (create_tag line i p) = p).
      { apply (text line i j); auto. now apply create_covers. }
      rewrite T. exists j. split; auto. left. now apply spec_symbols.
    - unfold path in H. destruct (strip (lit "/") i) as [i0|] eqn:Er.
      { exfalso. apply strip_app in Er. subst i. revert Es. apply (alt_hit _ (lit "/") _ i0); [cbn; tauto|reflexivity]. }
      destruct (tmp_op k line i) as [j1 t1| | |] eqn:Et; try discriminate. cbn [pbind] in H.
      destruct (tmp_op_sound _ _ _ _ S Et) as [E1 N1].
      destruct (sep_list_app line (length j1) j1 [t1]) as (more & Em & _). destruct (sep_list k line (length j1) j1 [t1]) as [j2 cs]. cbn [fst snd] in *. subst cs.
      destruct (starts 47 j2); [discriminate|]. cbn [pbind fst snd app] in H. injection H as -> <-. destruct more as [|m more].
      + cbn in O. injection O as <-. eauto.
      + cbn in O. discriminate.
    - exfalso. now apply (proj1 (alt_never specials i)).
    - exfalso. now apply (proj2 (alt_never specials i)).
  Qed.

  Lemma starts_with_iff : forall p s, starts_with p s = true <-> begins p s.
  Proof.
    intros p s. unfold starts_with, begins. destruct (strip p s) as [r|] eqn:E.
    - apply strip_app in E. split; eauto.
    - split; [discriminate|]. intros (r & ->). rewrite (proj2 (strip_app p (p ++ r) r) eq_refl) in E. discriminate.
  Qed.
  Lemma starts_with_not : forall p s, starts_with p s = false <-> ~ begins p s.
  Proof. intros p s. rewrite <- starts_with_iff. destruct (starts_with p s); split; congruence. Qed.
  Lemma skip_def : forall s, begins (lit "def") s -> skip s = s.
  Proof. intros s (r & ->). reflexivity. Qed.

  Lemma defty_sound : forall code j t, begins (lit "def") code -> defty_name k code = POk j t -> names_it k code (KType (tg_str t)).
  Proof.
    intros code j t B H. unfold defty_name, ws in H. rewrite skip_def in H by auto. unfold ptag in H.
    destruct (strip (lit "def-ty ") code) as [i|] eqn:E; [|discriminate]. apply strip_app in E. cbn [pbind] in H.
    destruct (op_ident k code i) as [j1 t1| | |] eqn:Ei; try discriminate. cbn [pbind] in H. injection H as <- <-.
    assert (S : suf i code) by (rewrite E; now eexists). destruct (op_ident_sound _ _ _ _ S Ei) as (E1 & N & C).
    cbn. split; [exact N|]. exists j1. split; [rewrite E, E1 at 1; reflexivity|exact C].
  Qed.
  Lemma def_sound : forall code j t, begins (lit "def") code -> ~ begins (lit "def-ty") code -> def_op k code code = POk j t -> names_it k code (KImpl (tg_str t)).
  Proof.
    intros code j t B Nb H. unfold def_op, ws in H. rewrite skip_def in H by auto. unfold ptag in H.
    destruct (strip (lit "def ") code) as [i|] eqn:E; [|discriminate]. apply strip_app in E. cbn [pbind] in H.
    destruct (op k code i) as [j1 o| | |] eqn:Eo; try discriminate. cbn [pbind] in H.
    destruct (is_op o) as [[t1|]| |] eqn:Ei; try discriminate. injection H as <- <-.
    assert (S : suf i code) by (rewrite E; now eexists). destruct (op_sound _ _ _ _ _ S Eo Ei) as (r & E1 & N).
    cbn [names_it]. split; [exact N|]. split; auto. exists r. rewrite E at 1. now rewrite E1 at 1.
  Qed.

  (** ** One item *)
  Lemma line_num_ok : forall s l, line_num s = Ok l -> l = (newlines s + 1)%N.
  Proof. intros s l H. unfold line_num in H. rewrite newlines_count in H. destruct (N.ltb _ _); [now injection H|discriminate]. Qed.

  Lemma item_place : forall it pre rest e, it = pre ++ rest -> solid k it -> last_end pre e rest ->
    exists a, trims k a (trim k (e ++ rest)) rest /\
      (forall b, newlines (b ++ firstn (if blank k (e ++ rest) then length it - length (e ++ rest) else length it - length (trim_start k (e ++ rest))) it)
       = newlines (b ++ pre ++ a)).
  Proof.
    intros it pre rest e E S L. assert (We := last_end_white k K _ _ _ L). rewrite trim_white_l, trim_start_white by auto.
    destruct (blank k (e ++ rest)) eqn:B.
    - apply blank_white in B. assert (Br : blank k rest = true) by (apply blank_white; intros c H; apply B; apply in_app_iff; auto).
      destruct (trims_blank k rest Br) as [T ->]. exists []. split; auto. intro b. rewrite app_nil_r. f_equal. f_equal.
      destruct L as [[-> ->]|(p & -> & L)].
      + rewrite E. cbn [app]. now rewrite Nat.sub_diag.
      + assert (e = []) as ->.
        { destruct e as [|c0 e0]; auto. exfalso.
          assert (Ee : ending (c0 :: e0)) by (unfold ending; destruct L as [[L _]|[L|[L _]]]; auto; discriminate).
          destruct (S (p ++ c0 :: e0) rest []) as (c & Hc & W); [rewrite app_nil_r; exact E|now apply ending_done|now left|].
          rewrite (B c) in W; [discriminate|apply in_app_iff; auto]. }
        cbn [app]. rewrite app_nil_r in *. rewrite E, app_length. replace (length p + length rest - length rest) with (length p) by lia. apply firstn_pre.
    - assert (Br : blank k rest = false).
      { destruct (blank k rest) eqn:Q; auto. exfalso. apply blank_white in Q. assert (W := all_white_app k _ _ We Q). apply blank_white in W. congruence. }
      destruct (trims_at k rest Br) as (a & T & A). exists a. split; auto. intro b. f_equal. f_equal.
      rewrite <- A in E. rewrite app_assoc in E. rewrite E, app_length.
      replace (length (pre ++ a) + length (trim_start k rest) - length (trim_start k rest)) with (length (pre ++ a)) by lia. rewrite firstn_pre. reflexivity.
  Qed.

  Lemma one_item_ok : forall b it mv doc x, solid k it -> one_item k b it mv doc = Ok x ->
    exists own, entry k b it own x /\ (mv = true -> it_doc (snd x) = doc) /\ (mv = false -> help own (it_doc (snd x))).
  Proof.
    intros b it mv doc x S H. unfold one_item in H. destruct (doc_comment k it) as [d t] eqn:Ed.
    destruct (doc_comment_ok k K _ _ _ Ed) as (pre & ds & rest & e & E & C & L & -> & ->).
    destruct (item_place it pre rest e E S L) as (a & T & N).
    set (code := trim k (e ++ rest)) in *. set (at_ := if blank k (e ++ rest) then _ else _) in *. cbv zeta in H.
    set (dd := if mv then doc else some_doc (join ds)) in *.
    assert (D : (mv = true -> dd = doc) /\ (mv = false -> help ds dd)).
    { unfold dd. split; intros ->; [reflexivity|apply some_doc_ok]. }
    assert (F : forall kd l, names_it k code kd -> line_num (b ++ firstn at_ it) = Ok l -> x = (kd, Item dd code l) ->
      exists own, entry k b it own x /\ (mv = true -> it_doc (snd x) = doc) /\ (mv = false -> help own (it_doc (snd x)))).
    { intros kd l Hk Hl ->. exists ds. cbn [snd it_doc]. split; [|exact D]. exists pre, rest, a. cbn [fst snd it_code it_line].
      split; auto. split; auto. split; auto. split; auto. rewrite (line_num_ok _ _ Hl). now rewrite N. }
    destruct (starts_with (lit "def-ty") code) eqn:B1.
    - apply starts_with_iff in B1. assert (B : begins (lit "def") code) by (destruct B1 as (r & ->); now exists (lit "-ty" ++ r)).
      destruct (defty_name k code) as [j n| | |] eqn:En; try discriminate.
      destruct (line_num (b ++ firstn at_ it)) as [l| |] eqn:El; try discriminate. cbn in H. injection H as <-.
      eapply F; [|reflexivity|reflexivity]. now apply defty_sound with (j := j).
    - apply starts_with_not in B1. destruct (starts_with (lit "def") code) eqn:B2.
      + apply starts_with_iff in B2. destruct (def_op k code code) as [j n| | |] eqn:En; try discriminate.
        destruct (line_num (b ++ firstn at_ it)) as [l| |] eqn:El; try discriminate. cbn in H. injection H as <-.
        eapply F; [|reflexivity|reflexivity]. now apply def_sound with (j := j).
      + apply starts_with_not in B2. destruct (line_num (b ++ firstn at_ it)) as [l| |] eqn:El; try discriminate. cbn in H. injection H as <-.
        eapply F; [|reflexivity|reflexivity]. exact B2.
  Qed.

  (** ** Directives *)
  Definition any {A} (i j : str) (a : A) : Prop := True.
  Arguments any {A} i j a /.
  Notation takes n := (good n any).

  Lemma takes_of : forall A n P i (r : pres A), good n P i r -> takes n i r.
  Proof. intros A n P i r G. destruct r; cbn in *; tauto. Qed.
  Lemma suf_span : forall p i, suf (snd (span p i)) i.
  Proof. intros p i. destruct (span p i) as [a b] eqn:E. apply span_app in E. now exists a. Qed.
  Lemma suf_space0 : forall i, suf (space0 i) i.
  Proof. intro i. apply suf_span. Qed.
  Lemma takes_from : forall A n (i j : str) (r : pres A), suf j i -> takes n j r -> takes n i r.
  Proof.
    intros A n i j r S G. destruct r; cbn in *; auto. destruct G as (G & L & _). split; [exact (suf_trans _ _ _ G S)|]. split; auto.
    apply suf_len in S. destruct n; auto. lia.
  Qed.
  Lemma takes_bind : forall A B (n m : bool) i (r : pres A) (f : str -> A -> pres B),
    takes n i r -> (forall j a, suf j i -> takes m j (f j a)) -> takes (n || m) i (pbind r f).
  Proof.
    intros A B n m i r f G F. destruct r as [j a| | |]; cbn [pbind]; try exact G. destruct G as (S & L & _). assert (H := F j a S).
    destruct (f j a) as [j' b| | |]; cbn in *; auto. destruct H as (S' & L' & _). split; [exact (suf_trans _ _ _ S' S)|]. split; auto.
    apply suf_len in S. apply suf_len in S'. destruct n, m; cbn; auto; lia.
  Qed.
  Lemma takes_weak : forall A n i (r : pres A), takes n i r -> takes false i r.
  Proof. intros A n i r G. destruct r; cbn in *; tauto. Qed.
  Lemma takes_true : forall A i (a : A), takes false i (POk i a).
  Proof. intros. cbn. split; [apply suf_refl|auto]. Qed.

  Lemma sep_go_takes : forall A B (sep : str -> pres A) (p : str -> pres B),
    (forall i, takes true i (sep i)) -> (forall i, takes false i (p i)) ->
    forall fuel i acc, length i < fuel -> takes false i (sep_go sep p fuel i acc).
  Proof.
    intros A B sep p Hs Hp. induction fuel as [|fuel IH]; intros i acc L; [lia|]. cbn [sep_go].
    assert (G := Hs i). destruct (sep i) as [i1 a| | |]; try exact G; [|apply takes_true]. destruct G as (S & L1 & _).
    assert (G := Hp i1). destruct (p i1) as [i2 b| | |]; try exact G; [|apply takes_true]. destruct G as (S2 & _ & _).
    assert (L2 := suf_len _ _ S2). cbn in L1. replace (Nat.eqb (length i2) (length i)) with false by (symmetry; apply Nat.eqb_neq; lia).
    apply takes_from with (j := i2); [exact (suf_trans _ _ _ S2 S)|]. apply IH. lia.
  Qed.
  Lemma sep_go_some : forall A B (sep : str -> pres A) (p : str -> pres B) fuel i acc j xs,
    sep_go sep p fuel i acc = POk j xs -> acc <> [] -> xs <> [].
  Proof.
    induction fuel as [|fuel IH]; intros i acc j xs H N; [discriminate|]. cbn [sep_go] in H.
    destruct (sep i) as [i1 a| | |]; try discriminate; [|injection H as _ <-; auto].
    destruct (p i1) as [i2 b| | |]; try discriminate; [|injection H as _ <-; auto].
    destruct (Nat.eqb _ _); [discriminate|]. apply IH in H; auto. destruct acc; discriminate.
  Qed.
  Lemma sep1_takes : forall A B (sep : str -> pres A) (p : str -> pres B) n,
    (forall i, takes true i (sep i)) -> (forall i, takes n i (p i)) -> forall i, takes n i (sep1 sep p i).
  Proof.
    intros A B sep p n Hs Hp i. unfold sep1. rewrite <- (orb_false_r n) at 1. apply takes_bind; auto. intros j a S.
    apply sep_go_takes; auto. intro i0. exact (takes_weak _ _ _ _ (Hp i0)).
  Qed.
  Lemma sep1_some : forall A B (sep : str -> pres A) (p : str -> pres B) i j xs, sep1 sep p i = POk j xs -> xs <> [].
  Proof. intros A B sep p i j xs H. unfold sep1 in H. destruct (p i); try discriminate. cbn [pbind] in H. eapply sep_go_some; [exact H|discriminate]. Qed.

  Lemma span1_takes : forall p i, takes true i (span1 p i).
  Proof. intros. eapply takes_of. apply span1_good. Qed.
  Lemma pchar_takes : forall c i, takes true i (pchar c i).
  Proof. intros. eapply takes_of. apply pchar_good. Qed.

  Lemma in_parens_takes : forall A (p : str -> pres A), (forall i, takes false i (p i)) -> forall i, takes true i (in_parens p i).
  Proof.
    intros A p Hp i. unfold in_parens. apply (takes_bind _ _ true false); [apply pchar_takes|]. intros j u S.
    apply (takes_bind _ _ false false).
    - apply sep1_takes; [apply span1_takes|]. intro i0. apply takes_from with (j := space0 i0); [apply suf_space0|apply Hp].
    - intros j1 xs S1. apply takes_from with (j := space0 j1); [apply suf_space0|]. apply (takes_weak _ true). apply (takes_bind _ _ true false); [apply pchar_takes|].
      intros j2 u2 S2. apply takes_true.
  Qed.
  Lemma components_fuel : forall ps, components k ps <> PFuel.
  Proof.
    induction ps as [|p ps IH]; cbn [components]; [discriminate|]. unfold component. destruct (str_eqb p (lit "..")); cbn [pbind].
    - destruct (components k ps); cbn; congruence.
    - assert (G := op_ident_good k p p (suf_refl p)). destruct (op_ident k p p); cbn [pbind]; try discriminate; [|destruct G].
      destruct (components k ps); cbn; congruence.
  Qed.
  Lemma import_takes : forall i, takes false i (import_p k i).
  Proof.
    intro i. unfold import_p.
    assert (X : exists j pre, (match strip (lit "//") i with Some j => (j, PPlugins) | None => match strip (lit "/") i with Some j => (j, PRoot) | None => (i, PNone) end end)
                 = (j, pre) /\ suf j i).
    { destruct (strip (lit "//") i) as [j|] eqn:E; [apply strip_app in E; subst; do 2 eexists; split; [reflexivity|now eexists]|].
      destruct (strip (lit "/") i) as [j|] eqn:E2; [apply strip_app in E2; subst; do 2 eexists; split; [reflexivity|now eexists]|].
      do 2 eexists; split; [reflexivity|apply suf_refl]. }
    destruct X as (j & pre & -> & S). apply takes_from with (j := j); auto. apply (takes_bind _ _ false false).
    - apply sep1_takes; [apply pchar_takes|]. intro i0. apply (takes_weak _ true). apply span1_takes.
    - intros j1 ps _. assert (G := span1_takes (fun c => negb (white k c || N.eqb c 41)) (last ps [])). fold (glob k (last ps [])) in G.
      destruct (glob k (last ps [])) as [j2 g| | |]; cbn [pbind]; try exact G.
      assert (C := components_fuel (removelast ps)). destruct (components k (removelast ps)) as [j3 path| | |]; cbn [pbind]; try exact I; [apply takes_true|congruence].
  Qed.
  Lemma strip_takes : forall A p j r (x : A), strip p j = Some r -> p <> [] -> takes true j (POk r x).
  Proof. intros A p j r x E N. apply strip_app in E. subst j. cbn. split; [now exists p|]. split; auto. rewrite app_length. destruct p; [congruence|cbn; lia]. Qed.
  Lemma strip_suf : forall p j r, strip p j = Some r -> suf r j.
  Proof. intros p j r E. apply strip_app in E. now exists p. Qed.
  Lemma directive_takes : forall i, takes true i (directive_p k i).
  Proof.
    intro i. unfold directive_p. apply takes_from with (j := space0 i); [apply suf_space0|]. set (j := space0 i). clearbody j. cbv zeta.
    destruct (strip (lit "no-parallelise") j) as [r|] eqn:E1; [eapply strip_takes; [exact E1|discriminate]|].
    destruct (strip (lit "fail-fast") j) as [r|] eqn:E2; [eapply strip_takes; [exact E2|discriminate]|].
    destruct (strip (lit "import") j) as [r|] eqn:E3.
    - apply takes_from with (j := r); [exact (strip_suf _ _ _ E3)|]. apply (takes_bind _ _ true false); [|intros; apply takes_true].
      apply in_parens_takes. apply import_takes.
    - destruct (strip (lit "export") j) as [r|] eqn:E4; [|exact I]. apply takes_from with (j := r); [exact (strip_suf _ _ _ E4)|].
      apply (takes_bind _ _ true false); [|intros; apply takes_true]. apply in_parens_takes. intro i0. apply (takes_weak _ true). apply span1_takes.
  Qed.
  Lemma cut_takes : forall A n i (r : pres A), takes n i r -> takes n i (cut r).
  Proof. intros A n i [j a| | |] G; cbn in *; auto. Qed.

  (** What a directive line begins with *)
  Notation opens := (opens k).
  Lemma directive_line_ok : forall text,
    match directive_line k text with
    | POk j ds => ds <> [] /\ exists a s, text = a ++ 91%N :: s ++ j /\ all_white k a
    | PErr => True
    | PFail => opens text
    | PFuel => False
    end.
  Proof.
    intro text. unfold directive_line. destruct (trim_start_split k text) as (a & E & W & _).
    assert (G := pchar_good 91 (trim_start k text)). destruct (pchar 91 (trim_start k text)) as [j u| | |] eqn:Ep; cbn [pbind]; auto.
    2:{ destruct (trim_start k text) as [|c t]; cbn in Ep; [discriminate|]. destruct (N.eqb c 91); discriminate. }
    destruct G as (S & L & G). assert (O : opens text) by (exists a, j; split; [rewrite E at 1; now rewrite G|auto]).
    assert (T := sep1_takes _ _ space1 (directive_p k) true (span1_takes sp) directive_takes j).
    destruct (sep1 space1 (directive_p k) j) as [j1 ds| | |] eqn:Es; cbn [pbind]; auto. apply sep1_some in Es. destruct T as (S1 & _ & _).
    assert (T := cut_takes _ _ _ _ (pchar_takes 93 (space0 j1))). destruct (cut (pchar 93 (space0 j1))) as [j2 u2| | |]; cbn [pbind]; auto.
    destruct T as (S2 & _ & _). split; auto.
    destruct (suf_trans _ _ _ S2 (suf_trans _ _ _ (suf_space0 j1) S1)) as (q & Eq). exists a, q. split; auto. rewrite E at 1. rewrite G. now rewrite Eq at 1.
  Qed.
  Lemma line_ending_ok : forall i, match line_ending i with POk j _ => exists e, ending e /\ i = e ++ j | PErr => True | _ => False end.
  Proof.
    intro i. unfold line_ending, ptag. destruct (strip [nl] i) as [j|] eqn:E; [apply strip_app in E; exists [nl]; unfold ending; auto|].
    destruct (strip [cr; nl] i) as [j|] eqn:E2; [apply strip_app in E2; exists [cr; nl]; unfold ending; auto|exact I].
  Qed.

  Lemma dirs_go_ok : forall fuel text ds, length text < fuel ->
    match dirs_go k fuel text ds with
    | POk body ds' => exists dirs, text = dirs ++ body /\ (ds' = ds /\ dirs = [] \/ ds' <> [] /\ line_done dirs /\ opens dirs)
    | PErr => False
    | PFail => exists p s, text = p ++ s /\ line_done p /\ opens s
    | PFuel => False
    end.
  Proof.
    induction fuel as [|fuel IH]; intros text ds L; [lia|]. cbn [dirs_go].
    assert (G := directive_line_ok text). destruct (directive_line k text) as [j d| | |] eqn:Ed; cbn [pbind popt].
    - destruct G as (N & a & q & Et & W). assert (Le := line_ending_ok j). destruct (line_ending j) as [j1 e| | |]; cbn [cut pbind popt]; try tauto.
      + destruct Le as (e' & He & ->). set (p := a ++ 91%N :: q).
        assert (Ep : text = (p ++ e') ++ j1) by (unfold p; rewrite Et, <- !app_assoc; cbn [app]; rewrite <- ?app_assoc; reflexivity).
        assert (Od : forall x, opens ((p ++ e') ++ x)) by (intro x; exists a, (q ++ e' ++ x); split; auto; unfold p; rewrite <- !app_assoc; cbn [app]; rewrite <- ?app_assoc; reflexivity).
        assert (Lj1 : length j1 < length text) by (rewrite Ep; unfold p; rewrite !app_length; cbn [length]; lia). clearbody p.
        assert (IH' := IH j1 (ds ++ d) ltac:(lia)).
        destruct (dirs_go k fuel j1 (ds ++ d)) as [body ds'| | |]; auto.
        * destruct IH' as (dirs & E & H). exists ((p ++ e') ++ dirs). split; [now rewrite <- app_assoc, <- E|]. right.
          destruct H as [[-> ->]|(H1 & H2 & H3)].
          -- split; [destruct ds; [exact N|discriminate]|]. split; [rewrite app_nil_r; now apply ending_done|apply Od].
          -- split; auto. split; [|apply Od]. destruct H2 as [->|(x & ->)]; [rewrite app_nil_r; now apply ending_done|]. right. exists ((p ++ e') ++ x). now rewrite app_assoc.
        * destruct IH' as (x & s & E & Q & Os). exists ((p ++ e') ++ x), s. split; [now rewrite <- app_assoc, <- E|]. split; auto.
          destruct Q as [->|(x' & ->)]; [rewrite app_nil_r; now apply ending_done|]. right. exists ((p ++ e') ++ x'). now rewrite app_assoc.
      + exists [], text. split; [reflexivity|]. split; [now left|]. exists a, (q ++ j). auto.
    - exists []. split; [reflexivity|]. left. auto.
    - exists [], text. split; [reflexivity|]. split; [now left|exact G].
    - exact G.
  Qed.

  (** ** The whole file *)
  Definition entries (its : list (str * str)) (own : list (list str)) (xs : list (kind * item)) : Prop :=
    Forall2 (fun bi ox => entry k (fst bi) (snd bi) (fst ox) (snd ox)) its (combine own xs) /\ length own = length xs.

  Lemma all_items_rest : forall head T ps its, Forall2 (rel k head T) ps its -> forall doc r, all_items k head T ps false doc = Ok r ->
    snd r = doc /\ exists own, entries its own (fst r) /\ Forall2 (fun d x => help d (it_doc (snd x))) own (fst r).
  Proof.
    induction 1 as [|se bi ps its R Rs IH]; intros doc r H; cbn [all_items] in H.
    - injection H as <-. split; [reflexivity|]. exists []. repeat split; constructor.
    - destruct bi as [b it]. destruct R as (R1 & R2 & R3 & R4). cbn [fst snd] in *. rewrite <- R1, <- R2 in H.
      destruct (one_item k b it false doc) as [x| |] eqn:E1; try discriminate. cbn [rbind] in H.
      destruct (all_items k head T ps false doc) as [r'| |] eqn:E2; try discriminate. cbn in H. injection H as <-. cbn [fst snd].
      destruct (one_item_ok _ _ _ _ _ R4 E1) as (own & En & _ & Hn). destruct (IH _ _ E2) as (-> & owns & [F L] & D).
      split; [reflexivity|]. exists (own :: owns). split; [split; [constructor; auto|cbn; now f_equal]|]. constructor; auto.
  Qed.
  Lemma all_items_ok : forall head T ps its, Forall2 (rel k head T) ps its -> forall (first : Prop) mv ds0 r,
    (mv = true <-> first) -> all_items k head T ps mv (some_doc (join ds0)) = Ok r ->
    exists own, entries its own (fst r) /\ docs first ds0 (snd r) own (fst r).
  Proof.
    intros head T ps its R first mv ds0 r M H. destruct R as [|se bi ps its R Rs]; cbn [all_items] in H.
    - injection H as <-. exists []. split; [repeat split; constructor|]. cbn. apply some_doc_ok.
    - destruct bi as [b it]. destruct R as (R1 & R2 & R3 & R4). cbn [fst snd] in *. rewrite <- R1, <- R2 in H.
      destruct (one_item k b it mv (some_doc (join ds0))) as [x| |] eqn:E1; try discriminate. cbn [rbind] in H.
      destruct (all_items k head T ps false (if mv then None else some_doc (join ds0))) as [r'| |] eqn:E2; try discriminate. cbn in H. injection H as <-. cbn [fst snd].
      destruct (one_item_ok _ _ _ _ _ R4 E1) as (own & En & H1 & H2). destruct (all_items_rest _ _ _ _ Rs _ _ E2) as (-> & owns & [F L] & D).
      exists (own :: owns). split; [split; [constructor; auto|cbn; now f_equal]|]. cbn [docs]. split; [|split; [|exact D]].
      + intro Fi. apply M in Fi. subst mv. rewrite H1 by auto. split; [apply some_doc_ok|reflexivity].
      + intro Nf. destruct mv; [exfalso; apply Nf; now apply M|]. split; [auto|apply some_doc_ok].
  Qed.

  Lemma head_of : forall (text w pre rest e dirs body : str), text = w ++ pre ++ rest -> last_end pre e rest -> e ++ rest = dirs ++ body ->
    exists h, text = h ++ body /\ firstn (length text - length body) text = h.
  Proof.
    intros text w pre rest e dirs body E L B.
    assert (X : exists h, text = h ++ body).
    { destruct L as [[-> ->]|(p & -> & _)].
      - cbn in *. subst. rewrite app_assoc. eauto.
      - rewrite <- app_assoc, B in E. rewrite E, !app_assoc. eauto. }
    destruct X as (h & ->). exists h. split; auto. rewrite app_length. replace (length h + length body - length body) with (length h) by lia. apply firstn_pre.
  Qed.

  Theorem file_outlines : forall text f, parse_file k text = Ok f -> outlines k text f.
  Proof.
    intros text f H. unfold parse_file in H. destruct (trim_start_split k text) as (w & Ew & Ww & Hw).
    destruct (doc_comment k (trim_start k text)) as [d t] eqn:Ed.
    destruct (doc_comment_ok k K _ _ _ Ed) as (pre & ds0 & rest & e & E & C & L & -> & ->).
    assert (G := dirs_go_ok (S (length (e ++ rest))) (e ++ rest) [] ltac:(lia)). cbv zeta in H.
    destruct (dirs_go k (S (length (e ++ rest))) (e ++ rest) []) as [body dl| | |]; try discriminate.
    destruct G as (dirs & Eb & G).
    assert (Et : text = w ++ pre ++ rest) by (rewrite <- E; exact Ew).
    destruct (head_of _ _ _ _ _ _ _ Et L Eb) as (h & Eh & Fh). rewrite Fh in H.
    destruct (split_items_ok k K h body) as (ps & its & Es & Sp & R). rewrite Es in H. cbn [rbind] in H.
    set (mv := match dl with [] => negb (starts_with [nl; nl] body) | _ => false end) in *.
    destruct (all_items k h body ps mv (some_doc (join ds0))) as [r| |] eqn:Ea; try discriminate. cbn [rbind] in H. injection H as <-.
    destruct (all_items_ok _ _ _ _ R (dl = [] /\ ~ begins [nl; nl] body) mv ds0 r) as (own & [F Lo] & D); auto.
    { unfold mv. rewrite <- starts_with_not. destruct dl; [|split; [discriminate|intros [Q _]; discriminate]].
      destruct (starts_with [nl; nl] body); cbn; split; auto; try discriminate; intros [_ Q]; discriminate. }
    exists w, pre, ds0, rest, e, dirs, body, its, own, (fst r). cbn [fl_dirs fl_doc fl_types fl_impls fl_exprs].
    split; auto. split; auto. split; [intros c s Q; apply (Hw c s); now rewrite E|]. split; auto. split; auto. split; auto.
    split; [intros ->; destruct G as [[_ G]|[G _]]; [exact G|congruence]|].
    split; [intro N; destruct G as [[G _]|(_ & G1 & G2)]; [congruence|]; split; auto|].
    rewrite Fh. auto 10.
  Qed.

  (** ** Failures *)
  Lemma newlines_le : forall a b, (newlines a <= newlines (a ++ b))%N.
  Proof. intros. rewrite newlines_app. lia. Qed.
  Lemma before_le : forall head T se n, (newlines ((head ++ firstn (fst se) T) ++ firstn n (cut_out T se)) <= newlines (head ++ T))%N.
  Proof.
    intros head T [s e] n. cbn [fst]. unfold cut_out. cbn [fst snd]. set (m := e - s).
    replace T with (firstn s T ++ (firstn n (firstn m (skipn s T)) ++ skipn n (firstn m (skipn s T))) ++ skipn m (skipn s T)) at 3.
    - rewrite !newlines_app. lia.
    - now rewrite !firstn_skipn.
  Qed.
  Lemma def_op_fuel : forall code, def_op k code code <> PFuel.
  Proof.
    intro code. unfold def_op, ws. assert (Sk := suf_skip code). unfold ptag. destruct (strip (lit "def ") (skip code)) as [i|] eqn:E; cbn [pbind]; [|discriminate].
    assert (G := op_good k code i (suf_trans _ _ _ (strip_suf _ _ _ E) Sk)). destruct (op k code i) as [j o| | |]; cbn [pbind]; try discriminate; [|destruct G].
    destruct (is_op o) as [[?|]| |]; discriminate.
  Qed.
  Lemma defty_fuel : forall code, defty_name k code <> PFuel.
  Proof.
    intro code. unfold defty_name, ws. assert (Sk := suf_skip code). unfold ptag. destruct (strip (lit "def-ty ") (skip code)) as [i|] eqn:E; cbn [pbind]; [|discriminate].
    assert (G := op_ident_good k code i (suf_trans _ _ _ (strip_suf _ _ _ E) Sk)). destruct (op_ident k code i) as [j o| | |]; cbn [pbind]; try discriminate. destruct G.
  Qed.
  Lemma one_item_total : forall head T se mv doc, (newlines (head ++ T) < 65535)%N -> one_item k (head ++ firstn (fst se) T) (cut_out T se) mv doc <> Panic.
  Proof.
    intros head T se mv doc N. unfold one_item. destruct (doc_comment k (cut_out T se)) as [d t]. cbv zeta.
    set (at_ := if blank k t then _ else _).
    assert (X : exists l, line_num ((head ++ firstn (fst se) T) ++ firstn at_ (cut_out T se)) = Ok l).
    { unfold line_num. rewrite newlines_count. assert (Y := before_le head T se at_).
      destruct (N.ltb_spec (newlines ((head ++ firstn (fst se) T) ++ firstn at_ (cut_out T se)) + 1) 65536); [eauto|lia]. }
    destruct X as (l & ->). cbn [rbind]. assert (Y1 := defty_fuel (trim k t)). assert (Y2 := def_op_fuel (trim k t)).
    destruct (starts_with (lit "def-ty") (trim k t)); [destruct (defty_name k (trim k t)); congruence|].
    destruct (starts_with (lit "def") (trim k t)); [destruct (def_op k (trim k t) (trim k t)); congruence|]. discriminate.
  Qed.
  Lemma all_items_total : forall head T ps mv doc, (newlines (head ++ T) < 65535)%N -> all_items k head T ps mv doc <> Panic.
  Proof.
    intros head T ps. induction ps as [|se ps IH]; intros mv doc N; cbn [all_items]; [discriminate|].
    assert (X := one_item_total head T se mv doc N). destruct (one_item k (head ++ firstn (fst se) T) (cut_out T se) mv doc) as [x| |]; try congruence; cbn [rbind]; [|discriminate].
    assert (Y := IH false (if mv then None else doc) N). destruct (all_items k head T ps false (if mv then None else doc)); try congruence; cbn; discriminate.
  Qed.
  Theorem file_total : forall text, (newlines text < 65535)%N -> parse_file k text <> Panic.
  Proof.
    intros text N H. unfold parse_file in H. destruct (trim_start_split k text) as (w & Ew & Ww & Hw).
    destruct (doc_comment k (trim_start k text)) as [d t] eqn:Ed.
    destruct (doc_comment_ok k K _ _ _ Ed) as (pre & ds0 & rest & e & E & C & L & -> & ->).
    assert (G := dirs_go_ok (S (length (e ++ rest))) (e ++ rest) [] ltac:(lia)). cbv zeta in H.
    destruct (dirs_go k (S (length (e ++ rest))) (e ++ rest) []) as [body dl| | |]; try discriminate; [|destruct G].
    destruct G as (dirs & Eb & G). assert (Et : text = w ++ pre ++ rest) by (rewrite <- E; exact Ew).
    destruct (head_of _ _ _ _ _ _ _ Et L Eb) as (h & Eh & Fh). rewrite Fh in H.
    destruct (split_items_ok k K h body) as (ps & its & Es & Sp & R). rewrite Es in H. cbn [rbind] in H.
    set (mv := match dl with [] => _ | _ => false end) in *.
    assert (X := all_items_total h body ps mv (some_doc (join ds0)) ltac:(now rewrite <- Eh)).
    destruct (all_items k h body ps mv (some_doc (join ds0))); try discriminate. congruence.
  Qed.

  (** A definition written as it should be *)
  Lemma strip_at : forall p s, strip p (p ++ s) = Some s.
  Proof. intros. now apply strip_app. Qed.
  Lemma over_stop : forall r, name_over k r -> stop k r.
  Proof. intros [|c r] H; [now left|]. right. exists c, r. split; auto. destruct (idchar k c) eqn:E; auto. exfalso. apply (H c r eq_refl). now apply idchar_in. Qed.
  Lemma over_op_stop : forall r, op_over k r -> op_stop k r.
  Proof.
    intros r (H1 & H2 & H3 & H4). split; [now apply over_stop|]. split; [|split].
    - destruct r as [|c r]; [reflexivity|]. cbn. apply N.eqb_neq. intros ->. apply H2. now exists r.
    - destruct r as [|c r]; [reflexivity|]. cbn. apply N.eqb_neq. intros ->. apply H3. now exists r.
    - intros X' ->. apply H4. now exists X'.
  Qed.
  Lemma item_refused : forall b it mv doc e, solid k it -> one_item k b it mv doc = Err e ->
    no_definition k it.
  Proof.
    intros b it mv doc e0 S H. unfold one_item in H. destruct (doc_comment k it) as [d t] eqn:Ed.
    destruct (doc_comment_ok k K _ _ _ Ed) as (pre & ds & rest & e & E & C & L & -> & ->).
    destruct (item_place it pre rest e E S L) as (a & T & _). set (code := trim k (e ++ rest)) in *. cbv zeta in H.
    set (at_ := if blank k (e ++ rest) then _ else _) in *.
    assert (Nl : forall A (x : N -> A), rbind (line_num (b ++ firstn at_ it)) (fun l => Ok (x l)) <> Err e0).
    { intros A x. unfold line_num. destruct (N.ltb _ _); cbn; discriminate. }
    exists ds, pre, rest, a, code. split; auto. split; auto. split; auto.
    destruct (starts_with (lit "def-ty") code) eqn:B1.
    - apply starts_with_iff in B1. split; [destruct B1 as (r & ->); now exists (lit "-ty" ++ r)|]. split.
      + intros n r Ec Hn Hr. apply over_stop in Hr. destruct (defty_name k code) as [j tg| | |] eqn:En; [now apply Nl in H| | |discriminate].
        1,2: clear - En Ec Hn Hr K; unfold defty_name, ws in En; replace (skip code) with (lit "def-ty " ++ n ++ r) in En by (rewrite Ec; reflexivity);
          unfold ptag in En; rewrite strip_at in En; cbn [pbind] in En;
          destruct (read_name k code n r) as (tg & Q & _); auto; [rewrite Ec; now exists (lit "def-ty ")|]; rewrite Q in En; discriminate.
      + intros n r Ec. destruct B1 as (r' & B1). rewrite B1 in Ec. discriminate.
    - apply starts_with_not in B1. destruct (starts_with (lit "def") code) eqn:B2; [|now apply Nl in H].
      apply starts_with_iff in B2. split; auto. split.
      + intros n r Ec. exfalso. apply B1. rewrite Ec. now exists (lit " " ++ n ++ r).
      + intros n r Ec Hn Hr. apply over_op_stop in Hr. destruct (def_op k code code) as [j tg| | |] eqn:En; [now apply Nl in H| | |discriminate].
        1,2: clear - En Ec Hn Hr K; unfold def_op, ws in En; replace (skip code) with (lit "def " ++ n ++ r) in En by (rewrite Ec; reflexivity);
          unfold ptag in En; rewrite strip_at in En; cbn [pbind] in En;
          destruct (read_op k code K (OpSingle (Tag 0 0 n)) n r) as (o' & Q & Er); auto; [split; auto|rewrite Ec; now exists (lit "def ")|]; rewrite Q in En;
          destruct o'; [cbn in En; discriminate|discriminate Er].
  Qed.
  Theorem file_refused : forall text e, parse_file k text = Err e ->
    (exists p s, text = p ++ s /\ opens s) \/
    (exists h body its b it, text = h ++ body /\ splits k 0 h body its /\ In (b, it) its /\
      no_definition k it).
  Proof.
    intros text e0 H. unfold parse_file in H. destruct (trim_start_split k text) as (w & Ew & Ww & Hw).
    destruct (doc_comment k (trim_start k text)) as [d t] eqn:Ed.
    destruct (doc_comment_ok k K _ _ _ Ed) as (pre & ds0 & rest & e & E & C & L & -> & ->).
    assert (G := dirs_go_ok (S (length (e ++ rest))) (e ++ rest) [] ltac:(lia)). cbv zeta in H.
    assert (Et : text = w ++ pre ++ rest) by (rewrite <- E; exact Ew).
    destruct (dirs_go k (S (length (e ++ rest))) (e ++ rest) []) as [body dl| | |]; [|destruct G| |discriminate].
    - right. destruct G as (dirs & Eb & G). destruct (head_of _ _ _ _ _ _ _ Et L Eb) as (h & Eh & Fh). rewrite Fh in H.
      destruct (split_items_ok k K h body) as (ps & its & Es & Sp & R). rewrite Es in H. cbn [rbind] in H.
      set (mv := match dl with [] => _ | _ => false end) in *. clearbody mv.
      assert (X : exists b it mv' doc', In (b, it) its /\ solid k it /\ one_item k b it mv' doc' = Err e0).
      { destruct (all_items k h body ps mv (some_doc (join ds0))) as [r|e1|] eqn:Ea; try discriminate. cbn in H. injection H as ->.
        clear - R Ea. revert mv Ea. generalize (some_doc (join ds0)). induction R as [|se [b it] ps its R Rs IH]; intros doc mv Ea; cbn [all_items] in Ea; [discriminate|].
        destruct R as (R1 & R2 & R3 & R4). cbn [fst snd] in *. rewrite <- R1, <- R2 in Ea.
        destruct (one_item k b it mv doc) as [x|e1|] eqn:E1; try discriminate; cbn [rbind] in Ea.
        - destruct (all_items k h body ps false (if mv then None else doc)) as [r|e1|] eqn:E2; try discriminate. cbn in Ea. injection Ea as ->.
          destruct (IH _ _ E2) as (b' & it' & mv' & doc' & I & Y). exists b', it', mv', doc'. split; [now right|exact Y].
        - injection Ea as ->. exists b, it, mv, doc. split; [now left|auto]. }
      destruct X as (b & it & mv' & doc' & I & Si & X). exists h, body, its, b, it. split; auto. split; auto. split; auto. eapply item_refused; eauto.
    - left. destruct G as (p & s & Eb & _ & O). destruct L as [[-> ->]|(q & -> & _)].
      + cbn [app] in *. exists (w ++ p), s. split; [rewrite Et, Eb; apply app_assoc|auto].
      + rewrite <- app_assoc, Eb in Et. exists (w ++ q ++ p), s. split; [now rewrite Et, <- !app_assoc|auto].
  Qed.
End Main.
