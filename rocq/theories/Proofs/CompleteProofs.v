From Coq Require Import String List ZArith NArith Bool Arith Lia.
From Verif Require Import Model.Base Model.Utf Model.Highlight Model.Complete Spec.CompleteSpec Proofs.UtfLemmas.
Import ListNotations.

Lemma esc_iff : forall c, esc c = true <-> quote c.
Proof. intros c. unfold esc, quote. rewrite orb_true_iff, !N.eqb_eq. tauto. Qed.
Lemma quote_dec : forall c, quote c \/ ~ quote c.
Proof. intros c. destruct (esc c) eqn:E; [left; now apply esc_iff|right]. intros H. apply esc_iff in H. congruence. Qed.

(** ** There is such a word *)
Lemma first_split : forall (q : N) s, In q s -> exists m r, s = m ++ q :: r /\ ~ In q m.
Proof.
  induction s as [|c s IH]; intros H; [destruct H|]. destruct (N.eq_dec c q) as [->|E]; [exists [], s; auto|]. destruct H as [H|H]; [congruence|]. destruct (IH H) as (m & r & -> & N'). exists (c :: m), r. split; [auto|]. intros [Z|Z]; auto.
Qed.
Lemma balanced_or : forall n s, length s <= n -> balanced s \/ exists a q b, s = a ++ q :: b /\ balanced a /\ quote q /\ ~ In q b.
Proof.
  induction n as [|n IH]; intros s L; (destruct s as [|c s]; [left; constructor|]); [cbn in L; lia|]. cbn in L. destruct (quote_dec c) as [Q|Q].
  - destruct (in_dec N.eq_dec c s) as [I|I]; [|right; exists [], c, s; repeat split; auto; constructor]. destruct (first_split _ _ I) as (m & r & -> & NI). rewrite app_length in L. cbn in L.
    destruct (IH r) as [B|(a & q & b & -> & B & Q2 & N2)]; [lia|left; now constructor|]. right. exists (c :: m ++ c :: a), q, b. repeat split; auto; [cbn; rewrite <- app_assoc; reflexivity|now constructor].
  - destruct (IH s) as [B|(a & q & b & -> & B & Q2 & N2)]; [lia|left; now constructor|]. right. exists (c :: a), q, b. repeat split; auto. now constructor.
Qed.
Lemma last_word : forall s : str, exists a r, s = a ++ r /\ ~ In 32%N r /\ after_space a.
Proof.
  induction s as [|c s IH] using rev_ind; [exists [], []; repeat split; auto; now left|]. destruct (N.eq_dec c 32) as [->|E].
  - exists (s ++ [32%N]), []. rewrite app_nil_r. repeat split; auto. right. eauto.
  - destruct IH as (a & r & -> & N' & A). exists a, (r ++ [c]). rewrite app_assoc. repeat split; auto. intros H. apply in_app_or in H as [H|[H|[]]]; auto.
Qed.
Lemma word_exists : forall line, exists r, path_word line r.
Proof.
  intros line. destruct (balanced_or _ line (le_n _)) as [B|(a & q & b & -> & B & Q & N')]; [|exists (q :: b); left; exists a, q, b; auto].
  destruct (last_word line) as (a & r & E & N' & A). destruct r as [|c r]; [exists line; right; right; rewrite app_nil_r in E; subst a; auto|]. exists (c :: r). right. left. exists a. repeat split; auto. discriminate.
Qed.

(** ** It is the one that is found *)
Lemma scan_quoted : forall q m t off i, ~ In q m -> unmatched (char_indices off (m ++ t)) (Some q) i = unmatched (char_indices (off + byte_len m) t) (Some q) i.
Proof.
  induction m as [|c m IH]; intros t off i H; [cbn; now rewrite Nat.add_0_r|]. cbn [app char_indices unmatched byte_len]. destruct (N.eqb_spec q c) as [->|]; [exfalso; apply H; now left|]. rewrite IH by (intros Z; apply H; now right). now rewrite Nat.add_assoc.
Qed.
Lemma scan_balanced : forall a, balanced a -> forall t off i, exists i', unmatched (char_indices off (a ++ t)) None i = unmatched (char_indices (off + byte_len a) t) None i'.
Proof.
  induction 1 as [|c s Q B IH|q m s Q N' B IH]; intros t off i.
  - exists i. cbn. now rewrite Nat.add_0_r.
  - cbn [app char_indices unmatched byte_len]. destruct (esc c) eqn:E; [apply esc_iff in E; contradiction|]. rewrite Nat.add_assoc. apply IH.
  - apply esc_iff in Q. cbn [app char_indices unmatched byte_len]. rewrite Q, <- app_assoc, scan_quoted by auto. cbn [app char_indices unmatched]. rewrite N.eqb_refl. destruct (IH t (off + len_utf8 q + byte_len m + len_utf8 q) off) as (i' & E). exists i'. rewrite E. f_equal. f_equal. rewrite byte_len_app. cbn [byte_len]. lia.
Qed.
Lemma indices_app : forall a b off, char_indices off (a ++ b) = char_indices off a ++ char_indices (off + byte_len a) b.
Proof. induction a as [|c a IH]; intros b off; cbn [app char_indices byte_len]; [now rewrite Nat.add_0_r|]. now rewrite IH, Nat.add_assoc. Qed.
Lemma back : forall r a off i, ~ In 32%N r -> after_space a -> word_start (rev (char_indices off (a ++ r))) i = match r with [] => match a with [] => i | _ => i end | _ => off + byte_len a end.
Proof.
  intros r a off i. revert i. induction r as [|c r IH] using rev_ind; intros i N' A.
  - rewrite app_nil_r. destruct A as [->|(b & ->)]; [reflexivity|]. rewrite indices_app, rev_app_distr. cbn. destruct b; reflexivity.
  - rewrite app_assoc, indices_app, rev_app_distr. cbn [char_indices rev app word_start]. destruct (N.eqb_spec c 32) as [->|E]; [exfalso; apply N', in_or_app; right; now left|].
    rewrite IH by (auto; intros Z; apply N', in_or_app; now left). destruct r; cbn [app]; [rewrite app_nil_r; now destruct a|reflexivity].
Qed.
Lemma slice_end : forall a b, slice_bytes (byte_len a) (byte_len (a ++ b)) (a ++ b) = Ok b.
Proof. intros a b. rewrite byte_len_app. rewrite <- (app_nil_r b) at 2. apply slice_bytes_app. Qed.
Lemma word_found : forall line r, path_word line r -> path_component line = Ok r.
Proof.
  intros line r [(a & q & b & -> & -> & B & Q & N')|[(a & E & B & NE & N' & A)|(B & A & ->)]]; unfold path_component.
  - destruct (scan_balanced a B (q :: b) 0 0) as (i' & ->). cbn [char_indices unmatched plus]. rewrite (proj2 (esc_iff q) Q). rewrite <- (app_nil_r b) at 1. rewrite scan_quoted by auto. cbn [char_indices unmatched]. apply slice_end.
  - destruct (scan_balanced line B [] 0 0) as (i' & E2). rewrite app_nil_r in E2. rewrite E2. cbn [char_indices unmatched]. subst line. rewrite back by auto. destruct r; [contradiction|]. apply slice_end.
  - destruct (scan_balanced line B [] 0 0) as (i' & E2). rewrite app_nil_r in E2. rewrite E2. cbn [char_indices unmatched].
    rewrite <- (app_nil_r line) at 1. rewrite back by (auto; intros []). replace (match line with [] => 0 | _ => 0 end) with (byte_len []) by now destruct line. apply (slice_end [] line).
Qed.
Theorem word_iff : forall line r, path_component line = Ok r <-> path_word line r.
Proof. intros line r. split; [|apply word_found]. intros H. destruct (word_exists line) as (r' & W). pose proof (word_found _ _ W) as E. assert (r = r') as -> by congruence. exact W. Qed.
Theorem word_total : forall line, exists r, path_component line = Ok r.
Proof. intros line. destruct (word_exists line) as (r & W). exists r. now apply word_found. Qed.

(** ** Files *)
Lemma names_end : forall s cur, exists x xs, names_at cur s = x :: xs.
Proof. induction s as [|c s IH]; intros cur; cbn; [eauto|]. destruct (c =? 47)%N; eauto. Qed.
Lemma names_slash : forall s cur t, names_at cur (s ++ 47%N :: t) = names_at cur s ++ names_at [] t.
Proof. induction s as [|c s IH]; intros cur t; cbn [app names_at]; [now rewrite N.eqb_refl|]. destruct (c =? 47)%N; [|apply IH]. cbn [app]. now rewrite IH. Qed.
Lemma names_one : forall s cur, ~ In 47%N s -> names_at cur s = [cur ++ s].
Proof.
  induction s as [|c s IH]; intros cur H; cbn [names_at]; [now rewrite app_nil_r|]. destruct (N.eqb_spec c 47) as [->|]; [exfalso; apply H; now left|]. rewrite IH by (intros Z; apply H; now right). now rewrite <- app_assoc.
Qed.
Section F.
Variables (is_dir : list str -> bool) (read_dir : list str -> option (list (option (str * bool)))).
Lemma entries_in : forall (es : list (option (str * bool))) x, In x (concat (map (fun e : option (str * bool) => match e with Some (n, b) => [(n, if b then KDir else KFile)] | None => [] end) es)) <->
  exists n b, In (Some (n, b)) es /\ x = (n, if b then KDir else KFile).
Proof.
  intros es x. rewrite <- flat_map_concat_map, in_flat_map. split.
  - intros ([(n & b)|] & I & H); [destruct H as [<-|[]]; eauto|destruct H].
  - intros (n & b & I & ->). exists (Some (n, b)). split; [auto|now left].
Qed.
Theorem paths_are : forall wd line, exists r, path_completions is_dir read_dir wd line = Ok r /\
  forall x, In x r <-> exists w d, path_word line w /\ (is_dir (join wd w) = true /\ d = join wd w \/ is_dir (join wd w) = false /\ parent (join wd w) = Some d) /\ listed read_dir d x.
Proof.
  intros wd line. destruct (word_total line) as (w & E). unfold path_completions. rewrite E. cbn [rbind]. eexists. split; [reflexivity|]. intros x.
  assert (U : forall w', path_word line w' -> w' = w) by (intros w' H; apply word_found in H; congruence). apply word_iff in E. split.
  - intros H. exists w. destruct (is_dir (join wd w)) eqn:D.
    + exists (join wd w). split; [auto|]. split; [auto|]. destruct (read_dir (join wd w)) as [es|] eqn:R; [|destruct H]. apply entries_in in H as (n & b & I & ->). exists es, n, b. auto.
    + destruct (parent (join wd w)) as [d|] eqn:P; [|destruct H]. exists d. split; [auto|]. split; [auto|]. destruct (read_dir d) as [es|] eqn:R; [|destruct H]. apply entries_in in H as (n & b & I & ->). exists es, n, b. auto.
  - intros (w' & d & W & C & es & n & b & R & I & ->). rewrite (U _ W) in *. destruct C as [(D & ->)|(D & P)]; rewrite D; [|rewrite P]; rewrite R; apply entries_in; eauto.
Qed.
(** Typing a name in a directory. *)
Theorem paths_in : forall wd line d x, path_word line (d ++ 47%N :: x) -> ~ In 47%N x -> d <> [] -> (forall c t, d = c :: t -> c <> 47%N) ->
  is_dir (wd ++ names d) = true -> (plain x = true -> is_dir (wd ++ names d ++ [x]) = false) ->
  exists r, path_completions is_dir read_dir wd line = Ok r /\ forall y, In y r <-> listed read_dir (wd ++ names d) y.
Proof.
  intros wd line d x W NS ND NR D F. destruct (paths_are wd line) as (r & E & H). exists r. split; [auto|]. intros y. rewrite H.
  assert (J : join wd (d ++ 47%N :: x) = wd ++ names d ++ (if plain x then [x] else [])).
  { destruct d as [|c d]; [contradiction|]. assert (c <> 47%N) by (eapply NR; reflexivity). cbn [app]. unfold join.
    assert (M : forall (A : Type) (u v : A), match c with 47%N => u | _ => v end = v) by (intros; destruct c as [|p]; auto; repeat (destruct p as [p|p|]; auto); congruence). rewrite M.
    unfold names. change (c :: d ++ 47%N :: x) with ((c :: d) ++ 47%N :: x). rewrite names_slash, filter_app. f_equal. f_equal. rewrite names_one by auto. cbn. now destruct (plain x). }
  assert (U : forall w', path_word line w' -> w' = d ++ 47%N :: x) by (intros w' Z; apply word_found in Z; apply word_found in W; congruence). split.
  - intros (w & dd & W' & C & L). rewrite (U _ W') in C. rewrite J in C. destruct (plain x) eqn:P.
    + rewrite F in C by auto. destruct C as [(Z & _)|(_ & Z)]; [discriminate|]. unfold parent in Z. rewrite app_assoc in Z. destruct ((wd ++ names d) ++ [x]) eqn:Q in Z; [discriminate|]. rewrite <- Q, removelast_last in Z. injection Z as <-. exact L.
    + rewrite app_nil_r, D in C. destruct C as [(_ & ->)|(Z & _)]; [exact L|discriminate].
  - intros L. exists (d ++ 47%N :: x), (wd ++ names d). split; [auto|]. split; [|auto]. rewrite J. destruct (plain x) eqn:P.
    + right. split; [auto|]. unfold parent. rewrite app_assoc. destruct ((wd ++ names d) ++ [x]) eqn:Q; [now destruct (wd ++ names d)|]. now rewrite <- Q, removelast_last.
    + left. now rewrite app_nil_r.
Qed.

(** ** What is offered *)
Variables (impls types : list str).
Notation at_spot := (at_spot is_dir read_dir impls types).
Lemma named_in : forall (k : kind) (l : list str) (x : def), In x (map (fun n => (n, k)) l) <-> snd x = k /\ In (fst x) l.
Proof. intros k l [n k']. rewrite in_map_iff. cbn. split; [intros (m & E & I); inversion E; subst; auto|intros (-> & I); eauto]. Qed.
Definition path_of (wd : option (list str)) (line : str) (x : def) : Prop := exists p r, wd = Some p /\ path_completions is_dir read_dir p line = Ok r /\ In x r.
Lemma cmpls_in : forall line wd items, exists r, cmpls is_dir read_dir impls types line wd items = Ok r /\ forall x, In x r <->
  (contains items PATHS = true /\ path_of wd line x) \/ (contains items IMPLS = true /\ snd x = KImpl /\ In (fst x) impls) \/
  (contains items TYPES = true /\ snd x = KType /\ In (fst x) types) \/ (contains items SPEC_LIT = true /\ snd x = KLit /\ In (fst x) [lit "#t"; lit "#f"; lit "#i"]).
Proof.
  intros line wd items. unfold cmpls. assert (X : exists r, match wd with Some p => if contains items PATHS then path_completions is_dir read_dir p line else Ok [] | None => Ok [] end = Ok r /\ forall x, In x r <-> contains items PATHS = true /\ path_of wd line x).
  { destruct wd as [p|]; [|exists []; split; [auto|]; intros x; split; [intros []|intros (_ & p & r & Z & _); discriminate]]. destruct (contains items PATHS); [|exists []; split; [auto|]; intros x; split; [intros []|intros (Z & _); discriminate]].
    destruct (paths_are p line) as (r & E & H). exists r. split; [auto|]. intros x. split; [intros I; split; [auto|]; exists p, r; auto|intros (_ & p' & r' & Z & E' & I)]. injection Z as <-. congruence. }
  destruct X as (r & -> & H). cbn [rbind]. eexists. split; [reflexivity|]. intros x.
  assert (SL : In x spec_literals <-> snd x = KLit /\ In (fst x) [lit "#t"; lit "#f"; lit "#i"]) by (change spec_literals with (map (fun n => (n, KLit)) [lit "#t"; lit "#f"; lit "#i"]); apply named_in).
  destruct (contains items IMPLS), (contains items TYPES), (contains items SPEC_LIT); rewrite ?in_app_iff, ?SL, ?named_in, H; intuition discriminate.
Qed.
Theorem offered : forall line wd s, wants s -> exists r, at_spot line wd s = Ok (Some r) /\ forall x, In x r <->
  (wants_impl s /\ snd x = KImpl /\ In (fst x) impls) \/ (wants_type s /\ snd x = KType /\ In (fst x) types) \/
  (wants_lit s /\ snd x = KLit /\ In (fst x) [lit "#t"; lit "#f"; lit "#i"]) \/ (wants_path s /\ exists p r', wd = Some p /\ path_completions is_dir read_dir p line = Ok r' /\ In x r').
Proof.
  intros line wd s W. assert (P : forall (a b : Prop), (true = true /\ a) <-> a) by tauto.
  assert (Q : forall a : Prop, (false = true /\ a) <-> False) by (intros; split; [intros (Z & _); discriminate|tauto]).
  assert (FIN : forall items r, (forall x, In x r <-> (contains items PATHS = true /\ path_of wd line x) \/ (contains items IMPLS = true /\ snd x = KImpl /\ In (fst x) impls) \/
     (contains items TYPES = true /\ snd x = KType /\ In (fst x) types) \/ (contains items SPEC_LIT = true /\ snd x = KLit /\ In (fst x) [lit "#t"; lit "#f"; lit "#i"])) ->
     (wants_path s <-> contains items PATHS = true) -> (wants_impl s <-> contains items IMPLS = true) -> (wants_type s <-> contains items TYPES = true) -> (wants_lit s <-> contains items SPEC_LIT = true) ->
     forall x, In x r <-> (wants_impl s /\ snd x = KImpl /\ In (fst x) impls) \/ (wants_type s /\ snd x = KType /\ In (fst x) types) \/
       (wants_lit s /\ snd x = KLit /\ In (fst x) [lit "#t"; lit "#f"; lit "#i"]) \/ (wants_path s /\ exists p r', wd = Some p /\ path_completions is_dir read_dir p line = Ok r' /\ In x r')).
  { intros items r H H1 H2 H3 H4 x. rewrite H, H1, H2, H3, H4. unfold path_of. tauto. }
  assert (G : forall items, (wants_path s <-> contains items PATHS = true) -> (wants_impl s <-> contains items IMPLS = true) -> (wants_type s <-> contains items TYPES = true) -> (wants_lit s <-> contains items SPEC_LIT = true) ->
     at_spot line wd s = (let? r := cmpls is_dir read_dir impls types line wd items in Ok (Some r)) -> exists r, at_spot line wd s = Ok (Some r) /\ forall x, In x r <-> (wants_impl s /\ snd x = KImpl /\ In (fst x) impls) \/ (wants_type s /\ snd x = KType /\ In (fst x) types) \/
       (wants_lit s /\ snd x = KLit /\ In (fst x) [lit "#t"; lit "#f"; lit "#i"]) \/ (wants_path s /\ exists p r', wd = Some p /\ path_completions is_dir read_dir p line = Ok r' /\ In x r')).
  { intros items H1 H2 H3 H4 E. destruct (cmpls_in line wd items) as (r & E2 & H). rewrite E2 in E. exists r. split; [exact E|]. now apply (FIN items). }
  assert (T : forall a : Prop, a -> (a <-> true = true)) by tauto. assert (F : forall a : Prop, ~ a -> (a <-> false = true)) by (intros; split; [tauto|discriminate]).
  destruct s as [[]|[]]; try (exfalso; unfold wants, wants_impl, wants_type, wants_lit in W; intuition discriminate);
    [apply (G IMPLS)|apply (G TYPES)|apply (G 13%N)|apply (G SPEC_LIT)|apply (G IMPLS)|apply (G 13%N)|apply (G TYPES)|apply (G SPEC_LIT)]; try reflexivity;
    first [apply T | apply F]; unfold wants_path, wants_impl, wants_type, wants_lit; intuition discriminate.
Qed.
Theorem not_offered : forall line wd s, ~ wants s -> s <> SNext XPath -> at_spot line wd s = Ok None.
Proof. intros line wd s W P. destruct s as [[]|[]]; try reflexivity; try congruence; exfalso; apply W; unfold wants, wants_impl, wants_type, wants_lit; tauto. Qed.
Theorem path_panics : forall line wd, at_spot line wd (SNext XPath) = Panic.
Proof. reflexivity. Qed.
End F.
