(** The statements about variables, for the graph of any expression. *)
From Coq Require Import String List Bool Arith Lia NArith ZArith Permutation Sorting.Sorted.
From Verif Require Import Model.Base Model.Value Model.Ast Model.Registry Model.AstGraph Model.Locals
  Spec.AstGraphSpec Spec.LocalsSpec.
From Verif Require Import Proofs.RegistryProofs Proofs.AstFlatProofs Proofs.AstExpandProofs Proofs.AstTypedProofs Proofs.LocalsGraphProofs Proofs.LocalsBuildProofs Proofs.LocalsProofs
  Proofs.LocalsRunProofs Proofs.LocalsSealProofs.
Import ListNotations.

Lemma build_iff : forall s e g cs, init s e = Ok (g, cs) ->
  ((exists lg, build g = Ok lg) <-> forall n t, node g n = Some (NExpr t) -> children g n <> []).
Proof.
  intros s e g cs E. pose proof (init_good s e E) as G. split; [intros (lg & B); apply (build_spec G B)|apply (build_ok G)].
Qed.


Lemma locals_state : forall order g vs cs, good g -> (forall m, Permutation (order m) m) -> Forall (in_graph g) cs ->
  forall lg0, build g = Ok lg0 -> exists lg, locals_of order g vs cs = Ok lg /\ state g (history vs cs) cs lg.
Proof.
  intros order g vs cs G O F lg0 B. unfold locals_of. rewrite B. cbn [rbind]. destruct (build_spec G B) as (BL & _).
  destruct (@seed_ok g G order O lg0 vs BL) as (lg1 & E1 & S1 & _). rewrite E1. cbn [rbind].
  destruct (@chgs_ok g G order O vs cs [] lg1 S1 F) as (lg2 & E2 & S2). eauto.
Qed.
Lemma locals_state' : forall order g vs cs lg, good g -> (forall m, Permutation (order m) m) -> Forall (in_graph g) cs ->
  locals_of order g vs cs = Ok lg -> state g (history vs cs) cs lg.
Proof.
  intros order g vs cs lg G O F E. destruct (build g) as [lg0| |] eqn:B; try (unfold locals_of in E; rewrite B in E; discriminate).
  destruct (@locals_state order g vs cs G O F lg0 B) as (lg' & E' & S). congruence.
Qed.

Lemma total : forall s e g cs0 order vs cs lg0, init s e = Ok (g, cs0) -> (forall m, Permutation (order m) m) -> Forall (in_graph g) cs ->
  build g = Ok lg0 -> exists lg, locals_of order g vs cs = Ok lg /\
    forall n x, n < length (g_nodes g) -> exists b o, sealed lg n = Ok b /\ get_ lg n x = Ok o /\ get_opt lg n x = Ok (b, if b then o else None).
Proof.
  intros s e g cs0 order vs cs lg0 E O F B. pose proof (init_good s e E) as G. destruct (@locals_state order g vs cs G O F lg0 B) as (lg & EL & S).
  exists lg. split; [exact EL|]. intros n x L. destruct (sealed_spec G S L) as (b & ES & _). destruct (@get_spec g G _ _ n x (s_settled S) (s_locals S) L) as (o & EO & _).
  exists b, o. split; [auto|]. split; [auto|]. unfold get_opt. rewrite ES. cbn [rbind]. destruct b; [rewrite EO|]; reflexivity.
Qed.

Lemma awaits_reach : forall g done, good g -> Forall (in_graph g) done -> forall n m, awaits g done n m <-> sreach g done n m.
Proof.
  intros g done G F n m. split.
  - intros H. induction H as [n|a b c C NB _ IH|a o t b c No Ia Fa C _ IH]; [constructor| |].
    + eapply sr_step; [|exact IH]. split; [now left|exact NB].
    + eapply sr_step; [|exact IH]. split.
      * right. split; [apply (is_arg_spec G); eauto|]. exists o. split; [eapply cb_arg; eauto|exact C].
      * intros B. rewrite Forall_forall in F. specialize (F _ B). cbn in F. destruct F as (_ & I2).
        assert (b = o) by (eapply (child_unique G); eauto). subst. apply (cb_lt G) in C. lia.
  - intros H. induction H as [n|a b c (S & NB) _ IH]; [constructor|]. destruct S as [S|(A & o & C1 & C2)].
    + eapply aw_before; eauto.
    + apply (is_arg_spec G) in A. destruct A as (o' & t & No & Ia & Fa). assert (o = o') by (eapply (cb_fun G); [exact C1|eapply cb_arg; eauto]). subst.
      eapply aw_arg; eauto.
Qed.

Lemma final : forall s e g cs0 order vs cs lg n x, init s e = Ok (g, cs0) -> (forall m, Permutation (order m) m) -> Forall (in_graph g) cs ->
  locals_of order g vs cs = Ok lg -> n < length (g_nodes g) ->
  exists b o, get_opt lg n x = Ok (b, o) /\ (b = true <-> forall m, awaits g cs n m -> finished g cs m) /\
  (forall l, o = Some l <-> b = true /\ exists d, visible g (history vs cs) x n d l) /\
  get lg n x = match o with Some l => Ok l | None => if b then Err 2 else Err 1 end.
Proof.
  intros s e g cs0 order vs cs lg n x E O F EL L. pose proof (init_good s e E) as G. pose proof (@locals_state' order g vs cs lg G O F EL) as S.
  destruct (sealed_spec G S L) as (b & ES & HB). destruct (@get_spec g G _ _ n x (s_settled S) (s_locals S) L) as (o & EO & H).
  exists b, (if b then o else None). unfold get_opt, get. rewrite ES. cbn [rbind]. rewrite EO. cbn [rbind]. split; [destruct b; reflexivity|]. split; [|split].
  - rewrite HB. unfold all_flagged. split; intros K m A; specialize (K m); apply (awaits_reach _ _ G F) in A; specialize (K A); unfold flagged, finished in *;
      [rewrite <- (is_arg_spec G)|rewrite (is_arg_spec G)]; exact K.
  - intros l. destruct b; [rewrite H; tauto|]. split; [discriminate|intros (? & _); discriminate].
  - destruct b; [destruct o|]; reflexivity.
Qed.

Lemma scope : forall s e g cs0 order vs cs lg n x o, init s e = Ok (g, cs0) -> (forall m, Permutation (order m) m) -> Forall (in_graph g) cs ->
  locals_of order g vs cs = Ok lg -> n < length (g_nodes g) -> get_ lg n x = Ok o ->
  forall l, o = Some l <-> exists d, visible g (history vs cs) x n d l.
Proof.
  intros s e g cs0 order vs cs lg n x o E O F EL L EG. pose proof (init_good s e E) as G. pose proof (@locals_state' order g vs cs lg G O F EL) as S.
  destruct (@get_spec g G _ _ n x (s_settled S) (s_locals S) L) as (o' & EO & H). assert (o' = o) by congruence. now subst.
Qed.

Lemma closest : forall s e g cs0 bs x n d l, init s e = Ok (g, cs0) -> visible g bs x n d l ->
  ahead g d n /\ bound_at bs d x = Some l /\ d <= n /\ forall m, ahead g d m -> ahead g m n -> m <> d -> bound_at bs m x = None.
Proof.
  intros s e g cs0 bs x n d l E V. pose proof (init_good s e E) as G. destruct (visible_ahead V) as (A & B). split; [auto|]. split; [auto|].
  split; [now apply (ahead_le G)|]. eapply visible_closest; eauto.
Qed.

Lemma in_arg : forall s e g cs0 bs x a d n l, init s e = Ok (g, cs0) ->
  (exists o t, node g o = Some (NOp t) /\ In a (children g o) /\ is_flag g a = false) ->
  visible g bs x n d l -> inside g a d -> inside g a n.
Proof.
  intros s e g cs0 bs x a d n l E A V I. pose proof (init_good s e E) as G. apply (arg_closed G) with (d := d); auto; [now apply (is_arg_spec G)|]. apply (visible_ahead V).
Qed.
Lemma in_body : forall s e g cs0 bs x b d n l, init s e = Ok (g, cs0) ->
  (exists c t ps, node g c = Some (NDef t ps) /\ In b (children g c)) ->
  visible g bs x n d l -> inside g b n -> inside g b d.
Proof.
  intros s e g cs0 bs x b d n l E (c & t & ps & C & CH) V I. pose proof (init_good s e E) as G. eapply (body_closed G); eauto. apply (visible_ahead V).
Qed.

Lemma slots : forall s e g cs0 order vs cs lg n x t k, init s e = Ok (g, cs0) -> (forall m, Permutation (order m) m) -> Forall (in_graph g) cs ->
  locals_of order g vs cs = Ok lg -> n < length (g_nodes g) -> get_ lg n x = Ok (Some (EVar t k)) ->
  k < lg_count lg /\ forall n' x' t', n' < length (g_nodes g) -> get_ lg n' x' = Ok (Some (EVar t' k)) ->
    exists d, x = x' /\ t = t' /\ visible g (history vs cs) x n d (EVar t k) /\ visible g (history vs cs) x n' d (EVar t k).
Proof.
  intros s e g cs0 order vs cs lg n x t k E O F EL L EG. pose proof (init_good s e E) as G. pose proof (@locals_state' order g vs cs lg G O F EL) as S.
  destruct (@get_spec g G _ _ n x (s_settled S) (s_locals S) L) as (o & EO & H). rewrite EG in EO. injection EO as <-.
  destruct (proj1 (H (EVar t k)) eq_refl) as (d & V). destruct (visible_ahead V) as (_ & B). apply bound_in in B. split.
  - apply slot_in in B. rewrite (s_slots S) in B. apply in_seq in B. lia.
  - intros n' x' t' L' EG'. destruct (@get_spec g G _ _ n' x' (s_settled S) (s_locals S) L') as (o' & EO' & H'). rewrite EG' in EO'. injection EO' as <-.
    destruct (proj1 (H' (EVar t' k)) eq_refl) as (d' & V'). destruct (visible_ahead V') as (_ & B'). apply bound_in in B'.
    assert (ND : NoDup (var_slots (history vs cs))) by (rewrite (s_slots S); apply seq_NoDup).
    destruct (slot_unique _ _ _ _ _ _ _ _ ND B B') as (<- & <- & <-). eauto.
Qed.

Lemma stays : forall s e g cs0 order vs cs1 cs2 lg1 lg2 n x o, init s e = Ok (g, cs0) -> (forall m, Permutation (order m) m) -> orderly g [] (cs1 ++ cs2) ->
  locals_of order g vs cs1 = Ok lg1 -> locals_of order g vs (cs1 ++ cs2) = Ok lg2 -> n < length (g_nodes g) ->
  get_opt lg1 n x = Ok (true, o) -> get_opt lg2 n x = Ok (true, o).
Proof.
  intros s e g cs0 order vs cs1 cs2 lg1 lg2 n x o E O OR E1 E2 L H. pose proof (init_good s e E) as G.
  assert (SP : forall cs1 done, orderly g done (cs1 ++ cs2) -> orderly g done cs1 /\ orderly g (done ++ cs1) cs2).
  { clear. induction cs1 as [|c cs IH]; intros done H; cbn in *; [rewrite app_nil_r; auto|]. destruct H as (M & H). destruct (IH _ H) as (A & B).
    rewrite <- app_assoc in B. auto. }
  destruct (SP _ _ OR) as (O1 & O2). cbn in O2.
  assert (LG0 : legal g []) by (intros c []). destruct (@orderly_legal g G cs1 [] LG0 O1) as (LG1 & F1). cbn in LG1.
  pose proof (@locals_state' order g vs cs1 lg1 G O F1 E1) as S1.
  assert (E12 : apply_chgs order lg1 cs2 = Ok lg2).
  { unfold locals_of in E1, E2. destruct (build g) as [b| |]; try discriminate. cbn [rbind] in *. destruct (seed order b (seed_vars vs)) as [b'| |]; try discriminate. cbn [rbind] in *.
    rewrite chgs_app, E1 in E2. exact E2. }
  eapply (@stable g G order O vs cs2 cs1); eauto.
Qed.

Lemma new_var_spec : forall s e g cs0 order vs cs lg n x t, init s e = Ok (g, cs0) -> (forall m, Permutation (order m) m) -> Forall (in_graph g) cs ->
  locals_of order g vs cs = Ok lg -> n < length (g_nodes g) ->
  new_var lg n x t = match bound_at (history vs cs) n x with Some (EVar t' k) => Ok (inl (EVar t' k)) | Some (EPtr _) => Panic | None => Ok (inr (NewVar x t n)) end /\
  forall to, new_lazy lg n x to = match bound_at (history vs cs) n x with Some (EPtr _) => Ok (inl tt) | Some (EVar _ _) => Panic | None => Ok (inr (NewLazy x to n)) end.
Proof.
  intros s e g cs0 order vs cs lg n x t E O F EL L. pose proof (init_good s e E) as G. pose proof (@locals_state' order g vs cs lg G O F EL) as S.
  unfold new_var, new_lazy. destruct (nth_error (lg_nodes lg) n) as [v|] eqn:V; [|apply nth_error_None in V; rewrite (b_size (proj1 (s_settled S))) in V; unfold sz in *; exfalso; revert L V; clear; intros; lia].
  pose proof (proj1 (s_settled S)) as B. pose proof (bidx_spec (history vs cs) 0 n x) as H. destruct (bidx 0 (history vs cs) n x) as [i|] eqn:Bi.
  - pose proof (@b_bound _ _ _ B n x i L Bi) as K. unfold look in K. rewrite V in K. rewrite K. cbn [lo_def lo_idx]. rewrite Nat.eqb_refl.
    destruct H as (l & N & BA & _). rewrite Nat.sub_0_r in N. rewrite BA, (s_locals S), (map_nth_error _ _ _ N). cbn [snd]. split; [|intros to]; destruct l; reflexivity.
  - rewrite H. destruct (alookup str_eqb x (va_map v)) as [l|] eqn:K; [|auto].
    assert (look lg n x = Some l) as Q by (unfold look; now rewrite V). pose proof (@b_free _ _ _ B n x l Bi Q). destruct (Nat.eqb_spec (lo_def l) n); [lia|auto].
Qed.
