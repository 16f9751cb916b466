(** Working directories of tabs. *)
From Coq Require Import String List ZArith NArith Bool Arith Lia.
From Verif Require Import Model.Base Model.SavePath Model.ShellDirs Spec.PathSpec Spec.DirSpec Proofs.PathProofs.
Import ListNotations.

Lemma text_after_spec : forall pre s r, text_after pre s = Some r <-> s = pre ++ r.
Proof.
  induction pre as [|a pre IH]; intros s r; cbn [text_after app]; [split; congruence|]. destruct s as [|b s]; [split; discriminate|].
  destruct (N.eqb_spec a b) as [->|N]; [|split; congruence]. rewrite IH. split; congruence.
Qed.
Lemma text_after_no : forall pre s, text_after pre s = None <-> forall r, s <> pre ++ r.
Proof.
  intros pre s. split.
  - intros H r E. apply text_after_spec in E. congruence.
  - intros H. destruct (text_after pre s) as [r|] eqn:E; [|reflexivity]. apply text_after_spec in E. now apply H in E.
Qed.
Lemma show_slashed : forall ns, show_path ns = slashed ns.
Proof.
  intros [|n ns]; [reflexivity|]. cbn [slashed]. revert n. induction ns as [|m ns IH]; intros n; [reflexivity|].
  change (show_path (n :: m :: ns)) with (n ++ slash :: show_path (m :: ns)). rewrite IH. cbn [fold_left].
  assert (G : forall l (a b : str), a ++ slash :: fold_left (fun t m => t ++ slash :: m) l b = fold_left (fun t m => t ++ slash :: m) l (a ++ slash :: b)).
  { clear. induction l as [|c l IH]; intros a b; [reflexivity|]. cbn [fold_left]. rewrite IH. f_equal. now rewrite <- app_assoc. }
  apply G.
Qed.

Lemma tab_get_insert : forall ts id w id', tab_get (tab_insert ts id w) id' = if Nat.eqb id id' then Some w else tab_get ts id'.
Proof.
  intros ts id w id'. unfold tab_insert. cbn [tab_get]. destruct (Nat.eqb_spec id id') as [->|N]; [reflexivity|].
  induction ts as [|[i x] ts IH]; [reflexivity|]. cbn [filter fst tab_get]. destruct (Nat.eqb_spec i id) as [->|N2]; cbn [negb].
  - destruct (Nat.eqb_spec id id'); [congruence|exact IH].
  - cbn [tab_get]. now rewrite IH.
Qed.

(** ** Paths *)
Lemma split_join : forall a b, split_slash (a ++ slash :: b) = split_slash a ++ split_slash b.
Proof.
  induction a as [|c a IH]; intros b; [reflexivity|]. cbn [app split_slash]. rewrite IH. destruct (N.eqb c slash); [reflexivity|].
  destruct (split_slash a) as [|l ls] eqn:E; [|reflexivity]. destruct a as [|d a]; [discriminate|]. cbn in E.
  destruct (N.eqb d slash); [discriminate|]. destruct (split_slash a); discriminate.
Qed.
Lemma split_some : forall a, exists l ls, split_slash a = l :: ls.
Proof. intros [|c a]; [now exists [], []|]. cbn. destruct (N.eqb c slash); [eauto|]. destruct (split_slash a); eauto. Qed.
Lemma split_name : forall n, ~ In slash n -> split_slash n = [n].
Proof.
  induction n as [|c n IH]; intros H; [reflexivity|]. cbn [split_slash]. destruct (N.eqb_spec c slash) as [->|N]; [exfalso; apply H; now left|].
  rewrite IH; [reflexivity|]. intros I. apply H. now right.
Qed.
Lemma split_slashed : forall ns n, Forall name (n :: ns) -> split_slash (show_path (n :: ns)) = n :: ns.
Proof.
  induction ns as [|m ns IH]; intros n H; apply Forall_cons_iff in H; destruct H as [(_ & H & _) Hs]; [now apply split_name|].
  change (show_path (n :: m :: ns)) with (n ++ slash :: show_path (m :: ns)). rewrite split_join, split_name by auto. rewrite IH by auto. reflexivity.
Qed.
Lemma body_names : forall ns, Forall name ns -> flat_map body_component ns = map Normal ns.
Proof.
  induction ns as [|n ns IH]; intros H; [reflexivity|]. apply Forall_cons_iff in H. destruct H as [(H1 & H2 & H3 & H4) H]. cbn [flat_map map]. rewrite (IH H).
  unfold body_component. destruct (str_eqb_spec n []); [congruence|]. destruct (str_eqb_spec n dot); [congruence|]. destruct (str_eqb_spec n dotdot); [congruence|]. reflexivity.
Qed.
Definition bodies (s : str) : list component := flat_map body_component (split_slash s).
Lemma components_join : forall a b, a <> [] -> components (a ++ slash :: b) = components a ++ bodies b.
Proof.
  intros a b N. unfold components, bodies. rewrite split_join. destruct a as [|c a]; [congruence|]. cbn [app is_absolute]. destruct (N.eqb c slash).
  - rewrite flat_map_app. reflexivity.
  - destruct (split_some (c :: a)) as (l & ls & E). rewrite E. cbn [app]. rewrite flat_map_app, app_assoc. reflexivity.
Qed.
Lemma is_absolute_slashed : forall ns, Forall name ns -> is_absolute (slashed ns) = false.
Proof.
  intros [|n ns] H; [reflexivity|]. rewrite <- show_slashed. apply Forall_cons_iff in H. destruct H as [(H1 & H2 & _) _].
  destruct n as [|c n]; [congruence|]. assert (X : exists t, show_path ((c :: n) :: ns) = c :: t) by (destruct ns; cbn; eauto). destruct X as (t & ->). cbn.
  destruct (N.eqb_spec c slash) as [->|]; [|reflexivity]. exfalso. apply H2. now left.
Qed.
Lemma bodies_slashed : forall ns, Forall name ns -> bodies (slashed ns) = map Normal ns.
Proof.
  intros [|n ns] H; [reflexivity|]. unfold bodies. rewrite <- show_slashed, split_slashed by auto. now apply body_names.
Qed.
Lemma components_below : forall root ns, root <> [] -> Forall name ns -> components (path_join root (slashed ns)) = components root ++ map Normal ns.
Proof.
  intros root ns N H. unfold path_join. rewrite is_absolute_slashed by auto. destruct (rev root) as [|c r] eqn:E.
  - apply (f_equal (@rev _)) in E. rewrite rev_involutive in E. now apply N in E.
  - assert (R : root = rev r ++ [c]) by (rewrite <- (rev_involutive root), E; reflexivity). destruct (N.eqb_spec c slash) as [->|Nc].
    + rewrite R, <- app_assoc. cbn [app]. rewrite <- (bodies_slashed ns H). destruct (rev r) as [|d r'] eqn:Er.
      * cbn [app]. unfold components, bodies. cbn. reflexivity.
      * rewrite !components_join by discriminate. cbn [bodies split_slash flat_map body_component]. change (bodies []) with (@nil component). now rewrite app_nil_r.
    + rewrite components_join by auto. now rewrite bodies_slashed.
Qed.
Lemma walk_app : forall a b d, walk d (a ++ b) = walk (walk d a) b.
Proof. intros a b d. apply fold_left_app. Qed.
Lemma walk_normals : forall ns d, walk d (map Normal ns) = d ++ ns.
Proof.
  induction ns as [|n ns IH]; intros d; [cbn; now rewrite app_nil_r|]. change (walk d (map Normal (n :: ns))) with (walk (d ++ [n]) (map Normal ns)).
  rewrite IH, <- app_assoc. reflexivity.
Qed.
Lemma below_root : forall root ns d, root <> [] -> Forall name ns -> walk d (components (path_join root (slashed ns))) = walk d (components root) ++ ns.
Proof. intros root ns d N H. rewrite components_below by auto. rewrite walk_app. apply walk_normals. Qed.

(** ** Steps *)
Definition at_place (st : dirs) (tab : nat) (pl : place) : Prop :=
  match tab_get (d_tabs st) tab with
  | None => pl = AtStart
  | Some w => w = place_text (d_root st) pl
  end.
Lemma join_dot : forall p, is_absolute p = false -> path_join dot p = dot ++ slash :: p.
Proof. intros p H. unfold path_join. rewrite H. reflexivity. Qed.
Lemma same_target : forall canon cwd st tab pl p, file_system canon cwd -> usable (d_root st) -> at_place st tab pl ->
  canon (path_join (match tab_get (d_tabs st) tab with Some w => path_join (d_root st) w | None => d_root st end) p) = canon (from (d_root st) pl p).
Proof.
  intros canon cwd st tab pl p FS U A. unfold at_place in A. destruct (tab_get (d_tabs st) tab) as [w|]; subst; [|reflexivity]. destruct pl as [|rel]; [|reflexivity].
  cbn [place_text]. unfold from. destruct U as [E|E].
  - rewrite E. destruct (is_absolute p) eqn:Ap; [unfold path_join; now rewrite Ap|]. rewrite (join_dot p Ap). rewrite <- (@fs_dot _ _ FS (dot ++ slash :: p)); [|cbn; discriminate|reflexivity].
    f_equal. unfold path_join. rewrite Ap. reflexivity.
  - unfold path_join at 2. rewrite E. reflexivity.
Qed.
Lemma leads_fun : forall canon root pl p rel rel', leads canon root pl p rel -> leads canon root pl p rel' -> rel = rel'.
Proof. intros canon root pl p rel rel' (r & A & B) (r' & A' & B'). rewrite A in A'. injection A' as <-. rewrite B in B'. injection B' as E. now apply app_inv_head in E. Qed.
Lemma validate_spec : forall canon cwd st tab pl p, file_system canon cwd -> usable (d_root st) -> at_place st tab pl ->
  (forall rel, leads canon (d_root st) pl p rel -> validate_path canon st tab p = Ok (slashed rel)) /\
  ((forall rel, ~ leads canon (d_root st) pl p rel) -> exists e, validate_path canon st tab p = Err e).
Proof.
  intros canon cwd st tab pl p FS U A. unfold validate_path. rewrite (same_target canon cwd st tab pl p FS U A). split.
  - intros rel (r & R & T). rewrite T, R. replace (strip_prefix r (r ++ rel)) with (Some rel) by (symmetry; now apply strip_prefix_spec). now rewrite show_slashed.
  - intros N. destruct (canon (from (d_root st) pl p)) as [w|] eqn:T; [|eauto]. destruct (canon (d_root st)) as [r|] eqn:R; [|eauto].
    destruct (strip_prefix r w) as [x|] eqn:E; [|eauto]. exfalso. apply strip_prefix_spec in E. subst w. apply (N x). exists r. auto.
Qed.
Lemma leads_dec : forall canon root pl p, (exists rel, leads canon root pl p rel) \/ forall rel, ~ leads canon root pl p rel.
Proof.
  intros canon root pl p. destruct (canon root) as [r|] eqn:R; [|right; intros rel (r & H & _); congruence].
  destruct (canon (from root pl p)) as [w|] eqn:T; [|right; intros rel (r' & _ & H); congruence].
  destruct (strip_prefix r w) as [x|] eqn:E.
  - left. exists x, r. apply strip_prefix_spec in E. subst. auto.
  - right. intros rel (r' & H1 & H2). rewrite R in H1. injection H1 as <-. rewrite T in H2. injection H2 as ->.
    assert (X : strip_prefix r (r ++ rel) = Some rel) by now apply strip_prefix_spec. congruence.
Qed.

Lemma tab_wd_root : forall st id, d_root (fst (tab_wd st id)) = d_root st.
Proof. intros st id. unfold tab_wd. destruct (tab_get _ _); reflexivity. Qed.
Lemma tab_wd_text : forall st id pl, at_place st id pl -> snd (tab_wd st id) = place_text (d_root st) pl.
Proof. intros st id pl H. unfold at_place, tab_wd in *. destruct (tab_get _ _); subst; reflexivity. Qed.
Lemma tab_wd_place : forall st id id' pl, at_place st id' pl -> at_place (fst (tab_wd st id)) id' pl.
Proof.
  intros st id id' pl H. unfold tab_wd. destruct (tab_get (d_tabs st) id) as [w|] eqn:E; [exact H|]. unfold at_place in *. cbn [fst d_tabs d_root].
  rewrite tab_get_insert. destruct (Nat.eqb_spec id id') as [->|N]; [|exact H]. rewrite E in H. subst. reflexivity.
Qed.
Lemma change_root : forall canon st id p, d_root (fst (change_working_dir canon st id p)) = d_root st.
Proof. intros canon st id p. unfold change_working_dir. destruct (validate_path _ _ _ _); reflexivity. Qed.
Lemma change_other : forall canon st id id' p pl, id <> id' -> at_place st id' pl -> at_place (fst (change_working_dir canon st id p)) id' pl.
Proof.
  intros canon st id id' p pl N H. unfold change_working_dir. destruct (validate_path _ _ _ _) as [w|e|]; try exact H. unfold at_place in *. cbn [fst d_tabs d_root].
  rewrite tab_get_insert. destruct (Nat.eqb_spec id id'); [congruence|exact H].
Qed.
Lemma change_spec : forall canon cwd st id p pl, file_system canon cwd -> usable (d_root st) -> at_place st id pl ->
  (forall rel, leads canon (d_root st) pl p rel -> at_place (fst (change_working_dir canon st id p)) id (Below rel) /\ snd (change_working_dir canon st id p) = None) /\
  ((forall rel, ~ leads canon (d_root st) pl p rel) -> fst (change_working_dir canon st id p) = st /\ snd (change_working_dir canon st id p) <> None).
Proof.
  intros canon cwd st id p pl FS U A. destruct (validate_spec canon cwd st id pl p FS U A) as [V1 V2]. unfold change_working_dir. split.
  - intros rel L. rewrite (V1 rel L). split; [|reflexivity]. unfold at_place. cbn [fst d_tabs d_root]. rewrite tab_get_insert, Nat.eqb_refl. reflexivity.
  - intros N. destruct (V2 N) as (e & ->). split; [reflexivity|discriminate].
Qed.

Lemma enter_root : forall canon st id line ev, d_root (fst (on_enter canon st id line ev)) = d_root st.
Proof.
  intros canon st id line ev. unfold on_enter. destruct (text_after (lit "cd ") line) as [p|].
  - destruct p as [|c p].
    + destruct (tab_wd st id) as [st' w] eqn:E. assert (X := tab_wd_root st id). rewrite E in X. exact X.
    + destruct (change_working_dir canon st id (c :: p)) as [st1 e] eqn:E1. assert (X1 := change_root canon st id (c :: p)). rewrite E1 in X1. cbn in X1.
      destruct (tab_wd st1 id) as [st2 w] eqn:E2. assert (X2 := tab_wd_root st1 id). rewrite E2 in X2. cbn in *. congruence.
  - destruct (text_after (lit "run ") line) as [fl|].
    + destruct (batch_flags fl) as [[f par] fast]. destruct (validate_path canon st id f); cbn [fst]; try reflexivity. destruct ev; [apply tab_wd_root|reflexivity].
    + destruct ev; [|reflexivity]. destruct (tab_wd st id) as [st' w] eqn:E. assert (X := tab_wd_root st id). rewrite E in X. exact X.
Qed.
Lemma enter_other : forall canon st id line ev id' pl, id <> id' -> at_place st id' pl -> at_place (fst (on_enter canon st id line ev)) id' pl.
Proof.
  intros canon st id line ev id' pl N A. unfold on_enter. destruct (text_after (lit "cd ") line) as [p|].
  - destruct p as [|c p].
    + destruct (tab_wd st id) as [st' w] eqn:E. assert (X := tab_wd_place st id id' pl A). rewrite E in X. exact X.
    + destruct (change_working_dir canon st id (c :: p)) as [st1 e] eqn:E1. assert (X1 := change_other canon st id id' (c :: p) pl N A). rewrite E1 in X1. cbn [fst] in X1.
      destruct (tab_wd st1 id) as [st2 w] eqn:E2. assert (X2 := tab_wd_place st1 id id' pl X1). rewrite E2 in X2. exact X2.
  - destruct (text_after (lit "run ") line) as [fl|].
    + destruct (batch_flags fl) as [[f par] fast]. destruct (validate_path canon st id f); cbn [fst]; try exact A. destruct ev; [now apply tab_wd_place|exact A].
    + destruct ev; [|exact A]. destruct (tab_wd st id) as [st' w] eqn:E. assert (X := tab_wd_place st id id' pl A). rewrite E in X. exact X.
Qed.
(** The lines of [cd] in the tab. *)
Lemma enter_cd : forall canon cwd st id p ev pl, file_system canon cwd -> usable (d_root st) -> at_place st id pl -> p <> [] ->
  (forall rel, leads canon (d_root st) pl p rel -> at_place (fst (on_enter canon st id (lit "cd " ++ p) ev)) id (Below rel) /\
     snd (on_enter canon st id (lit "cd " ++ p) ev) = Moved None (slashed rel)) /\
  ((forall rel, ~ leads canon (d_root st) pl p rel) -> at_place (fst (on_enter canon st id (lit "cd " ++ p) ev)) id pl /\
     exists e, snd (on_enter canon st id (lit "cd " ++ p) ev) = Moved (Some e) (place_text (d_root st) pl)).
Proof.
  intros canon cwd st id p ev pl FS U A N. unfold on_enter. replace (text_after (lit "cd ") (lit "cd " ++ p)) with (Some p) by (symmetry; now apply text_after_spec).
  destruct p as [|c p]; [congruence|]. destruct (change_spec canon cwd st id (c :: p) pl FS U A) as [C1 C2].
  assert (X1 := change_root canon st id (c :: p)). destruct (change_working_dir canon st id (c :: p)) as [st1 e] eqn:E1. cbn [fst snd] in *. split.
  - intros rel L. destruct (C1 rel L) as [P ->]. assert (Y1 := tab_wd_place st1 id id (Below rel) P). assert (Y2 := tab_wd_text st1 id (Below rel) P).
    destruct (tab_wd st1 id) as [st2 w]. cbn [fst snd place_text] in *. subst w. split; [exact Y1|reflexivity].
  - intros Nl. destruct (C2 Nl) as [-> En]. assert (Y1 := tab_wd_place st id id pl A). assert (Y2 := tab_wd_text st id pl A). destruct (tab_wd st id) as [st2 w]. cbn [fst snd] in *. subst w.
    split; [exact Y1|]. destruct e as [e|]; [eauto|congruence].
Qed.
Lemma enter_cd_none : forall canon st id ev pl, at_place st id pl -> at_place (fst (on_enter canon st id (lit "cd ") ev)) id pl /\
  snd (on_enter canon st id (lit "cd ") ev) = Moved None (place_text (d_root st) pl).
Proof.
  intros canon st id ev pl A. unfold on_enter. change (text_after (lit "cd ") (lit "cd ")) with (Some (@nil N)). cbv beta iota.
  assert (Y1 := tab_wd_place st id id pl A). assert (Y2 := tab_wd_text st id pl A). destruct (tab_wd st id) as [st2 w]. cbn [fst snd] in *. subst w. split; [exact Y1|reflexivity].
Qed.
Lemma enter_line : forall canon st id line ev pl, (forall p, line <> lit "cd " ++ p) -> at_place st id pl -> at_place (fst (on_enter canon st id line ev)) id pl.
Proof.
  intros canon st id line ev pl N A. unfold on_enter. apply text_after_no in N. rewrite N. destruct (text_after (lit "run ") line) as [fl|].
  - destruct (batch_flags fl) as [[f par] fast]. destruct (validate_path canon st id f); cbn [fst]; try exact A. destruct ev; [now apply tab_wd_place|exact A].
  - destruct ev; [|exact A]. assert (X := tab_wd_place st id id pl A). destruct (tab_wd st id) as [st' w]. exact X.
Qed.
Lemma enter_eval : forall canon st id line pl, (forall p, line <> lit "cd " ++ p) -> (forall f, line <> lit "run " ++ f) -> at_place st id pl ->
  snd (on_enter canon st id line true) = Evaluated (place_text (d_root st) pl).
Proof.
  intros canon st id line pl N1 N2 A. unfold on_enter. apply text_after_no in N1, N2. rewrite N1, N2. assert (Y2 := tab_wd_text st id pl A).
  destruct (tab_wd st id) as [st' w]. cbn [snd] in *. now subst.
Qed.
Lemma enter_run : forall canon cwd st id fl f par fast ev pl, file_system canon cwd -> usable (d_root st) -> at_place st id pl -> batch_flags fl = (f, par, fast) ->
  (forall rel, leads canon (d_root st) pl f rel -> snd (on_enter canon st id (lit "run " ++ fl) ev) = Batch (slashed rel) par fast) /\
  ((forall rel, ~ leads canon (d_root st) pl f rel) -> exists e, snd (on_enter canon st id (lit "run " ++ fl) ev) = Refused e).
Proof.
  intros canon cwd st id fl f par fast ev pl FS U A B. unfold on_enter. replace (text_after (lit "cd ") (lit "run " ++ fl)) with (@None str) by reflexivity.
  replace (text_after (lit "run ") (lit "run " ++ fl)) with (Some fl) by (symmetry; now apply text_after_spec). rewrite B.
  destruct (validate_spec canon cwd st id pl f FS U A) as [V1 V2]. split.
  - intros rel L. now rewrite (V1 rel L).
  - intros N. destruct (V2 N) as (e & ->). eexists. reflexivity.
Qed.

(** ** Sessions *)
Lemma session_goes : forall es st tab pl, usable (d_root st) -> Forall sound_entry es -> at_place st tab pl ->
  exists pl', goes (d_root st) tab pl (map typed_of es) pl' /\ at_place (fst (session st es)) tab pl' /\ d_root (fst (session st es)) = d_root st.
Proof.
  induction es as [|e es IH]; intros st tab pl U F A.
  - exists pl. repeat split; [constructor|exact A].
  - apply Forall_cons_iff in F. destruct F as [(cwd & FS) F]. cbn [session map]. assert (R := enter_root (e_canon e) st (e_tab e) (e_line e) (e_evals e)).
    set (s1 := on_enter (e_canon e) st (e_tab e) (e_line e) (e_evals e)) in *.
    assert (Step : exists pl1, at_place (fst s1) tab pl1 /\ forall pl', goes (d_root st) tab pl1 (map typed_of es) pl' -> goes (d_root st) tab pl (typed_of e :: map typed_of es) pl').
    { destruct e as [canon t line ev]. unfold typed_of at 2. cbn [e_canon e_tab e_line e_evals] in *. destruct (Nat.eq_dec t tab) as [->|Nt].
      - destruct (text_after (lit "cd ") line) as [p|] eqn:T.
        + apply text_after_spec in T. subst line. destruct p as [|c p].
          * exists pl. split; [apply (enter_cd_none canon st tab ev pl A)|]. intros pl' G. now apply goes_nowhere.
          * destruct (enter_cd canon cwd st tab (c :: p) ev pl FS U A) as [E1 E2]; [discriminate|]. destruct (leads_dec canon (d_root st) pl (c :: p)) as [(rel & L)|Nl].
            -- exists (Below rel). split; [now apply E1|]. intros pl' G. eapply goes_to; eauto. discriminate.
            -- exists pl. split; [now apply E2|]. intros pl' G. now apply goes_not.
        + assert (T' := proj1 (text_after_no _ _) T). clear T. exists pl. split; [now apply enter_line|]. intros pl' G. now apply goes_line.
      - exists pl. split; [now apply enter_other|]. intros pl' G. now apply goes_tab. }
    destruct Step as (pl1 & A1 & G1). destruct s1 as [st1 ev1]. cbn [fst] in *. rewrite <- R in U. destruct (IH st1 tab pl1 U F A1) as (pl' & G & A' & R').
    exists pl'. rewrite R in G, R'. destruct (session st1 es) as [st2 evs]. cbn [fst] in *. repeat split; auto.
Qed.
Lemma cd_inj : forall p q, lit "cd " ++ p = lit "cd " ++ q -> p = q.
Proof. intros p q. apply app_inv_head. Qed.
Lemma cd_none : forall p, lit "cd " ++ p = lit "cd " -> p = [].
Proof. intros p H. rewrite <- (app_nil_r (lit "cd ")) in H at 2. now apply app_inv_head in H. Qed.
Lemma goes_fun : forall root tab es pl pl1 pl2, goes root tab pl es pl1 -> goes root tab pl es pl2 -> pl1 = pl2.
Proof.
  intros root tab es. induction es as [|[[canon t] line] es IH]; intros pl pl1 pl2 H K.
  - inversion H; inversion K; subst; reflexivity.
  - assert (One : forall q, goes root tab pl ((canon, t, line) :: es) q -> exists m, goes root tab m es q /\
      ((t = tab /\ exists p rel, line = lit "cd " ++ p /\ p <> [] /\ leads canon root pl p rel /\ m = Below rel) \/
       (m = pl /\ (t <> tab \/ (forall p rel, line = lit "cd " ++ p -> p <> [] -> ~ leads canon root pl p rel))))).
    { clear. intros q G. inversion G; subst.
      - eexists. split; [eassumption|]. left. split; [reflexivity|]. exists p, rel. auto.
      - eexists. split; [eassumption|]. right. split; [reflexivity|]. right. intros p' rel E _. injection E as ->. match goal with H : forall rel, ~ leads _ _ _ _ rel |- _ => apply H end.
      - eexists. split; [eassumption|]. right. split; [reflexivity|]. right. intros p' rel E N _. destruct p'; [now apply N|discriminate].
      - eexists. split; [eassumption|]. right. split; [reflexivity|]. right. intros p' rel E. exfalso. match goal with H : forall p, line <> _ |- _ => exact (H p' E) end.
      - eexists. split; [eassumption|]. right. split; [reflexivity|]. now left. }
    destruct (One _ H) as (m1 & G1 & C1), (One _ K) as (m2 & G2 & C2). assert (m1 = m2); [|subst; eauto].
    destruct C1 as [(T1 & p1 & r1 & L1 & N1 & D1 & ->)|[-> C1]], C2 as [(T2 & p2 & r2 & L2 & N2 & D2 & ->)|[-> C2]]; auto.
    + rewrite L1 in L2. apply cd_inj in L2. subst. f_equal. eapply leads_fun; eauto.
    + exfalso. destruct C2 as [C2|C2]; [auto|]. now apply (C2 p1 r1).
    + exfalso. destruct C1 as [C1|C1]; [auto|]. now apply (C1 p2 r2).
Qed.
Lemma goes_names : forall root tab es pl pl', Forall (fun e : typed => exists cwd, file_system (fst (fst e)) cwd) es -> goes root tab pl es pl' ->
  match pl with AtStart => True | Below rel => Forall name rel end -> match pl' with AtStart => True | Below rel => Forall name rel end.
Proof.
  intros root tab es pl pl' F G. induction G; intros H'; auto; apply Forall_cons_iff in F; destruct F as [(cwd & FS) F]; try (apply IHG; assumption).
  apply IHG; auto. match goal with H : leads _ _ _ _ _ |- _ => destruct H as (r & _ & E) end. apply (fs_names FS) in E. apply Forall_app in E. tauto.
Qed.
Lemma session_app : forall es1 es2 st, session st (es1 ++ es2) = (fst (session (fst (session st es1)) es2), snd (session st es1) ++ snd (session (fst (session st es1)) es2)).
Proof.
  induction es1 as [|e es1 IH]; intros es2 st; cbn [app session fst snd]; [now destruct (session st es2)|].
  destruct (on_enter _ _ _ _ _) as [st1 ev]. rewrite IH. destruct (session st1 es1) as [st2 evs]. reflexivity.
Qed.

(** What the last line of a session does. *)
Lemma session_last : forall root es e, usable root -> Forall sound_entry es -> exists pl st, goes root (e_tab e) AtStart (map typed_of es) pl /\
  at_place st (e_tab e) pl /\ d_root st = root /\ snd (session (start root) (es ++ [e])) = snd (session (start root) es) ++ [snd (on_enter (e_canon e) st (e_tab e) (e_line e) (e_evals e))].
Proof.
  intros root es e U F. destruct (session_goes es (start root) (e_tab e) AtStart U F eq_refl) as (pl & G & A & R). exists pl, (fst (session (start root) es)).
  repeat split; auto. rewrite session_app. cbn [snd session]. destruct (on_enter _ _ _ _ _) as [st1 ev]. reflexivity.
Qed.
Lemma session_cd : forall root es canon cwd tab p ev, usable root -> Forall sound_entry es -> file_system canon cwd -> p <> [] -> exists pl ev',
  goes root tab AtStart (map typed_of es) pl /\ snd (session (start root) (es ++ [Entry canon tab (lit "cd " ++ p) ev])) = snd (session (start root) es) ++ [ev'] /\
  (forall rel, leads canon root pl p rel -> ev' = Moved None (slashed rel)) /\
  ((forall rel, ~ leads canon root pl p rel) -> exists e, ev' = Moved (Some e) (place_text root pl)).
Proof.
  intros root es canon cwd tab p ev U F FS N. destruct (session_last root es (Entry canon tab (lit "cd " ++ p) ev) U F) as (pl & st & G & A & R & E). cbn [e_tab e_canon e_line e_evals] in *.
  exists pl. eexists. split; [exact G|]. split; [exact E|]. rewrite <- R in U. destruct (enter_cd canon cwd st tab p ev pl FS U A N) as [E1 E2]. rewrite <- R. split.
  - intros rel L. now apply E1.
  - intros L. now apply E2.
Qed.
Lemma session_run : forall root es canon cwd tab fl f par fast ev, usable root -> Forall sound_entry es -> file_system canon cwd -> batch_flags fl = (f, par, fast) -> exists pl ev',
  goes root tab AtStart (map typed_of es) pl /\ snd (session (start root) (es ++ [Entry canon tab (lit "run " ++ fl) ev])) = snd (session (start root) es) ++ [ev'] /\
  (forall rel, leads canon root pl f rel -> ev' = Batch (slashed rel) par fast) /\
  ((forall rel, ~ leads canon root pl f rel) -> exists e, ev' = Refused e).
Proof.
  intros root es canon cwd tab fl f par fast ev U F FS B. destruct (session_last root es (Entry canon tab (lit "run " ++ fl) ev) U F) as (pl & st & G & A & R & E). cbn [e_tab e_canon e_line e_evals] in *.
  exists pl. eexists. split; [exact G|]. split; [exact E|]. rewrite <- R in U. destruct (enter_run canon cwd st tab fl f par fast ev pl FS U A B) as [E1 E2]. rewrite <- R. auto.
Qed.
Lemma session_eval : forall root es canon tab line, usable root -> Forall sound_entry es -> (forall p, line <> lit "cd " ++ p) -> (forall f, line <> lit "run " ++ f) -> exists pl,
  goes root tab AtStart (map typed_of es) pl /\ snd (session (start root) (es ++ [Entry canon tab line true])) = snd (session (start root) es) ++ [Evaluated (place_text root pl)].
Proof.
  intros root es canon tab line U F N1 N2. destruct (session_last root es (Entry canon tab line true) U F) as (pl & st & G & A & R & E). cbn [e_tab e_canon e_line e_evals] in *.
  exists pl. split; [exact G|]. rewrite E. rewrite (enter_eval canon st tab line pl N1 N2 A), R. reflexivity.
Qed.

(** ** In the shell, which has the root [.] *)
Lemma usable_dot : usable dot.
Proof. now left. Qed.
Lemma last_slashed : forall rel, Forall name rel -> rel <> [] -> slashed rel <> [] /\ is_absolute (slashed rel) = false.
Proof.
  intros rel F N. split; [|now apply is_absolute_slashed]. rewrite <- show_slashed. destruct rel as [|n rel]; [congruence|]. apply Forall_cons_iff in F. destruct F as [[H _] _].
  destruct rel; cbn; [exact H|]. now destruct n.
Qed.
Lemma path_join_dot : forall w p, w <> [] -> is_absolute w = false -> is_absolute p = false -> path_join (dot ++ slash :: w) p = dot ++ slash :: path_join w p.
Proof.
  intros w p N Aw Ap. unfold path_join. rewrite Ap. assert (X : rev (dot ++ slash :: w) = rev w ++ [slash; 46%N]) by (change (dot ++ slash :: w) with (dot ++ [slash] ++ w); rewrite !rev_app_distr; cbn; now rewrite <- app_assoc).
  rewrite X. destruct (rev w) as [|c r] eqn:E; [apply (f_equal (@rev _)) in E; rewrite rev_involutive in E; now apply N in E|]. cbn [app]. destruct (N.eqb c slash); reflexivity.
Qed.
(** [ls] with a path lists the directory that [open] would look at. *)
Lemma ls_same : forall canon cwd pl p, file_system canon cwd -> match pl with AtStart => True | Below rel => Forall name rel /\ rel <> [] end -> p <> [] ->
  canon (ls_path (place_text dot pl) (Some p)) = canon (io_path dot (place_text dot pl) p).
Proof.
  intros canon cwd pl p FS H Np. unfold ls_path, io_path. destruct (is_absolute p) eqn:Ap; [unfold path_join; now rewrite Ap|]. destruct pl as [|rel]; cbn [place_text].
  - rewrite (join_dot p Ap). symmetry. change (path_join dot dot) with (dot ++ slash :: dot). rewrite path_join_dot by (discriminate || auto). rewrite (join_dot p Ap).
    apply (fs_dot FS); [cbn; discriminate|reflexivity].
  - destruct H as [F N]. destruct (last_slashed rel F N) as [S1 S2]. rewrite (join_dot _ S2). rewrite path_join_dot by auto. symmetry. apply (fs_dot FS).
    + unfold path_join. rewrite Ap. destruct (rev (slashed rel)) as [|c r]; [exact Np|]. destruct (N.eqb c slash); now destruct (slashed rel).
    + unfold path_join. rewrite Ap. destruct (rev (slashed rel)) as [|c r]; [exact Ap|]. destruct (slashed rel) as [|d s]; [congruence|]. destruct (N.eqb c slash); exact S2.
Qed.
(** Without a path it lists the directory the tab is in. *)
Lemma ls_here : forall canon cwd rel, file_system canon cwd -> Forall name rel -> rel <> [] ->
  canon (ls_path (place_text dot (Below rel)) None) = canon (path_join dot (slashed rel)).
Proof.
  intros canon cwd rel FS F N. destruct (last_slashed rel F N) as [S1 S2]. cbn [ls_path place_text]. rewrite (join_dot _ S2). symmetry. now apply (fs_dot FS).
Qed.
Lemma ls_empty : forall canon cwd, file_system canon cwd -> canon (ls_path (place_text dot (Below [])) None) = None /\ canon (path_join dot (slashed [])) = canon (dot ++ [slash]).
Proof. intros canon cwd FS. split; [exact (fs_empty FS)|reflexivity]. Qed.
(** [run] opens the file it has checked. *)
Lemma run_same : forall canon cwd pl f rel, file_system canon cwd -> leads canon dot pl f rel -> rel <> [] -> canon (slashed rel) = canon (from dot pl f).
Proof.
  intros canon cwd pl f rel FS (r & R & T) N. rewrite (fs_here FS) in R. injection R as <-. rewrite T. exact (@fs_again _ _ FS _ _ T N).
Qed.

(** ** Flags of [run] *)
Lemma remove_none : forall pat s, text_contains pat s = false -> text_remove pat 0 s = s.
Proof.
  intros pat s. induction s as [|c s IH]; intros H; [reflexivity|]. cbn [text_contains] in H. cbn [text_remove]. destruct (text_after pat (c :: s)); [discriminate|]. now rewrite (IH H).
Qed.
Lemma flags_none : forall s, text_contains (lit " --no-par") s = false -> text_contains (lit " --no-fast-fail") s = false -> batch_flags s = (s, None, None).
Proof. intros s H1 H2. unfold batch_flags. now rewrite H1, H2. Qed.
Lemma after_space : forall pat c s, ~ (c = 32%N) -> text_after (32%N :: pat) (c :: s) = None.
Proof. intros pat c s H. cbn [text_after]. destruct (N.eqb_spec 32 c); [congruence|reflexivity]. Qed.
Lemma contains_front : forall pat f s, ~ In 32%N f -> text_contains (32%N :: pat) (f ++ s) = text_contains (32%N :: pat) s.
Proof.
  intros pat f s. induction f as [|c f IH]; intros H; [reflexivity|]. cbn [app text_contains]. rewrite after_space by (intros ->; apply H; now left). apply IH. intros I. apply H. now right.
Qed.
Lemma remove_front : forall pat f s, ~ In 32%N f -> text_remove (32%N :: pat) 0 (f ++ s) = f ++ text_remove (32%N :: pat) 0 s.
Proof.
  intros pat f s. induction f as [|c f IH]; intros H; [reflexivity|]. cbn [app text_remove]. rewrite after_space by (intros ->; apply H; now left). rewrite IH; [reflexivity|]. intros I. apply H. now right.
Qed.
Lemma flags_word : forall f x, ~ In 32%N f -> let '(r, par, fast) := batch_flags x in batch_flags (f ++ x) = (f ++ r, par, fast).
Proof.
  intros f x H. unfold batch_flags. change (lit " --no-par") with (32%N :: lit "--no-par"). change (lit " --no-fast-fail") with (32%N :: lit "--no-fast-fail"). rewrite contains_front by auto.
  destruct (text_contains (32%N :: lit "--no-par") x).
  - rewrite remove_front by auto. rewrite contains_front by auto. destruct (text_contains (32%N :: lit "--no-fast-fail") _); [now rewrite remove_front|reflexivity].
  - rewrite contains_front by auto. destruct (text_contains (32%N :: lit "--no-fast-fail") x); [now rewrite remove_front|reflexivity].
Qed.

(** ** A file system without links, given by its files *)
Definition walked (cwd : list str) (files : list (list str)) (p : str) : option (list str) :=
  match p with
  | [] => None
  | _ => let d := walk cwd (components p) in if existsb (fun f => if list_eq_dec (list_eq_dec N.eq_dec) f d then true else false) files then Some d else None
  end.
Lemma walked_in : forall cwd files p d, walked cwd files p = Some d -> In d files /\ p <> [] /\ d = walk cwd (components p).
Proof.
  intros cwd files p d H. unfold walked in H. destruct p as [|c p]; [discriminate|]. destruct (existsb _ files) eqn:E; [|discriminate]. injection H as <-.
  apply existsb_exists in E. destruct E as (x & I & E). destruct (list_eq_dec _ x _) as [->|]; [|discriminate]. repeat split; [exact I|discriminate].
Qed.
Lemma walked_from : forall cwd files p d, In d files -> p <> [] -> d = walk cwd (components p) -> walked cwd files p = Some d.
Proof.
  intros cwd files p d I N ->. unfold walked. destruct p as [|c p]; [congruence|]. replace (existsb _ files) with true; [reflexivity|]. symmetry. apply existsb_exists.
  eexists. split; [exact I|]. destruct (list_eq_dec _ _ _); congruence.
Qed.
Lemma walked_system : forall cwd files, Forall (Forall name) files -> In cwd files -> file_system (walked cwd files) cwd.
Proof.
  intros cwd files F I. split.
  - intros p d H. apply walked_in in H. destruct H as (H & _). rewrite Forall_forall in F. auto.
  - apply walked_from; [exact I|discriminate|reflexivity].
  - reflexivity.
  - intros p N A. unfold walked. destruct p as [|c p]; [congruence|]. change (dot ++ slash :: c :: p) with (46%N :: slash :: c :: p). cbv beta iota.
    assert (X : walk cwd (components (46%N :: slash :: c :: p)) = walk cwd (components (c :: p))).
    { change (46%N :: slash :: c :: p) with (dot ++ slash :: c :: p). rewrite components_join by discriminate. rewrite walk_app. change (walk cwd (components dot)) with cwd.
      unfold components, bodies. rewrite A. destruct (split_some (c :: p)) as (l & ls & E). rewrite E. cbn [flat_map]. unfold body_component at 1. destruct (str_eqb_spec l dot) as [->|Nd].
      - rewrite orb_true_r. rewrite !walk_app. reflexivity.
      - unfold body_component at 2. destruct (str_eqb_spec l dot); [congruence|]. reflexivity. }
    now rewrite X.
  - intros p rel H N. apply walked_in in H. destruct H as (H & _). assert (Fr : Forall name rel) by (rewrite Forall_forall in F; specialize (F _ H); apply Forall_app in F; tauto).
    destruct (last_slashed rel Fr N) as [S1 S2]. apply walked_from; [exact H|exact S1|]. unfold components. rewrite S2.
    destruct rel as [|n rel]; [congruence|]. rewrite <- show_slashed, split_slashed by auto. replace (str_eqb n dot) with false.
    + change (body_component n ++ flat_map body_component rel) with (flat_map body_component (n :: rel)). rewrite body_names by auto. symmetry. apply walk_normals.
    + apply Forall_cons_iff in Fr. destruct Fr as [(_ & _ & Fr & _) _]. destruct (str_eqb_spec n dot); [congruence|reflexivity].
Qed.
