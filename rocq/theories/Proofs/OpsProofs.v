(** Intrinsics take and return what they say. *)
From Coq Require Import String List NArith Bool Arith Lia Permutation.
From Verif Require Import Model.Base Model.Value Model.Ast Model.Registry Model.AstGraph Model.TyBuild Model.Compile Model.Tuple Model.Get Model.ArgApi Model.Ops Spec.AstGraphSpec Spec.TyBuildSpec Spec.LocalsSpec Spec.CompileSpec Spec.ArgSpec Spec.OpSpec
  Proofs.TyBuildBase Proofs.TyBuildNodes Proofs.CompileProofs Proofs.CompileInv Proofs.ArgProofs Proofs.CallProofs Proofs.OpsBase Proofs.OpsArgs Proofs.OpsVars.
From Verif Require Model.TyGraph Model.Locals Proofs.LocalsGraphProofs Proofs.AstTypedProofs.
Import ListNotations.

Section A.
Variable g : graph.
Hypothesis G : LocalsGraphProofs.good g.
Notation comp := (comp code ArgApi.binding cparam).
Variables (rep : tkey -> ty) (types : str -> option ty) (format : str -> bool) (inject : injected -> tkey -> tkey + cerr).
Variables (c : comp) (k : nat).
Hypothesis HK : exists y, node g k = Some (NOp y).
Notation Y := (OpsBase.Y code g c k).
Notation used := (used code g c).
Notation shaped := (shaped g).
Notation compiles := (compiles g rep types format inject c k).
Notation sig := (sig rep (type_flag types) format (OpSpec.ready_in inject)).
Notation uses := (uses code g rep c).

(** ** Shapes *)
Definition text_of (a : argument) : option str := match Ops.text g a with inl x => Some x | inr _ => None end.
Definition shape_of (a : argument) : shape := Shape (ar_in a) (ar_out a) (text_of a).
Lemma text_ok : forall a x, written_text g (ar_hold a) x <-> x = text_of a.
Proof.
  intros a x. unfold written_text, text_of, Ops.text. destruct (ar_hold a) as [n u|u|u s|e u]; try tauto. destruct (tkey_eqb u KStr) eqn:E.
  - apply tkey_eqb_eq in E. subst u. destruct (node g n) as [[| | | |y|z y|q y|y|y]|] eqn:N;
      try (split; [intros [(y' & Z & _)|(_ & ->)]; [congruence|reflexivity]|intros ->; right; split; [intros; congruence|reflexivity]]).
    split; [intros [(y' & Z & ->)|(Z & _)]; [congruence|now destruct (Z y)]|intros ->; left; eauto].
  - assert (NS : u <> KStr) by (intros ->; rewrite tkey_refl in E; discriminate). destruct u; try tauto; congruence.
Qed.
Lemma shaped_iff : forall a s, shaped a s <-> s = shape_of a.
Proof.
  intros a [i o x]. unfold OpSpec.shaped, shape_of. cbn. rewrite text_ok. split; [intros (-> & -> & ->); reflexivity|intros H; injection H as -> -> ->; auto].
Qed.
Lemma shapes_iff : forall l s, Forall2 shaped l s <-> s = map shape_of l.
Proof.
  induction l as [|a l IH]; intros s; cbn.
  - split; [intros H; now inversion H|intros ->; constructor].
  - split; [intros H; inversion H as [|? ? ? ? A B]; subst; apply shaped_iff in A; apply IH in B; congruence|intros ->; constructor; [now apply shaped_iff|now apply IH]].
Qed.
Lemma text_some : forall a x, Ops.text g a = inl x <-> sh_text (shape_of a) = Some x.
Proof. intros a x. cbn. unfold text_of. destruct (Ops.text g a); split; congruence. Qed.
Lemma make : forall w t o fl ns opts l vs ty fd u, (forall v, w = Some v -> wants g c k v) -> uses o fl t ns l vs -> sig w o fl t (map shape_of l) u (Detail opts ty fd) ->
  compiles o fl t ns u (Code o opts l vs ty fd).
Proof. intros w t o fl ns opts l vs ty fd u W U S. split; [reflexivity|]. exists w, (map shape_of l), (Detail opts ty fd). cbn. split; [now apply shapes_iff|]. split; [exact U|]. split; [exact W|]. split; [exact S|]. auto. Qed.
Lemma unmake : forall t o fl ns u x, compiles o fl t ns u x -> exists w, (forall v, w = Some v -> wants g c k v) /\ x = Code o (cd_opts x) (cd_args x) (cd_vars x) (cd_ty x) (cd_field x) /\
  uses o fl t ns (cd_args x) (cd_vars x) /\ sig w o fl t (map shape_of (cd_args x)) u (Detail (cd_opts x) (cd_ty x) (cd_field x)).
Proof.
  intros t o fl ns u x (E & w & l & d & S & U & W & Z & E1 & E2 & E3). apply shapes_iff in S. subst l. exists w. split; [auto|]. split; [destruct x; cbn in *; now subst|]. split; [auto|].
  rewrite E1, E2, E3. destruct d; auto.
Qed.

(** ** From the model to the table *)
Ltac fw1 H :=
  cbn [ok] in H;
  lazymatch type of H with
  | OpsBase.Y _ _ _ _ _ (PFail _ _) _ _ _ => apply -> Y_fail in H; destruct H
  | OpsBase.Y _ _ _ _ _ (PEval _ _) _ _ _ => let E1 := fresh "EF" in let E2 := fresh "EN" in apply -> Y_eval in H; destruct H as (E1 & E2 & H); injection H as -> ->
  | OpsBase.Y _ _ _ _ _ (PSays _ _) _ _ _ => apply -> Y_says in H
  | OpsBase.Y _ _ _ _ _ (PAnon _ _) _ _ _ => apply -> Y_anon in H
  | OpsBase.Y _ _ _ _ _ (PAddsVars _ _) _ _ _ => apply -> Y_adds in H
  | OpsBase.Y _ _ _ _ _ (PVarsAdded _) _ _ _ => apply -> Y_added in H
  | OpsBase.Y _ _ _ _ _ (POblige _ _) _ _ _ => apply -> Y_oblige in H
  | OpsBase.Y _ _ _ _ _ (assert_input _ _ _) _ _ _ => let E := fresh "ET" in apply -> Y_assert in H; destruct H as (E & H)
  | OpsBase.Y _ _ _ _ _ (named_flag _ _) _ _ _ => let fl := fresh "fl" in let E := fresh "EP" in eapply Y_named in H; destruct H as [(fl & E & H)|(E & H)]
  | OpsBase.Y _ _ _ _ _ (if ?b then _ else _) _ _ _ => let E := fresh "EB" in destruct b eqn:E
  | OpsBase.Y _ _ _ _ _ (arg _ _ _) _ _ _ => let n := fresh "n" in let ns := fresh "ns" in let a := fresh "a" in let U := fresh "U" in let I := fresh "I" in let O := fresh "O" in
      apply -> (Y_arg _ G) in H; destruct H as (n & ns & a & -> & U & I & O & H)
  | OpsBase.Y _ _ _ _ _ (any_arg _ _) _ _ _ => let n := fresh "n" in let ns := fresh "ns" in let a := fresh "a" in let U := fresh "U" in let I := fresh "I" in
      apply -> (Y_any_arg _ G) in H; destruct H as (n & ns & a & -> & U & I & H)
  | OpsBase.Y _ _ _ _ _ (args _ _ _ _ _) _ _ _ => let n := fresh "ns" in let ns := fresh "ns" in let a := fresh "l" in let U := fresh "U" in let A := fresh "A" in let E := fresh "E" in let L := fresh "L" in
      apply -> (Y_args _ G) in H; destruct H as (n & ns & a & E & L & U & A & H)
  | OpsBase.Y _ _ _ _ _ (any_args _ _ _ _) _ _ _ => let n := fresh "ns" in let ns := fresh "ns" in let a := fresh "l" in let U := fresh "U" in let A := fresh "A" in let E := fresh "E" in let L := fresh "L" in
      apply -> (Y_any_args _ G) in H; destruct H as (n & ns & a & E & L & U & A & H)
  end.
Ltac fw H := repeat fw1 H.
Ltac plain_uses := cbn; split; [reflexivity|]; repeat first [assumption|apply Forall2_cons|apply Forall2_nil].
Lemma forall_to : forall i o l, Forall (fun a => ar_in a = i /\ ar_out a = o) l <-> Forall (to i o) (map shape_of l).
Proof. intros. rewrite Forall_map. reflexivity. Qed.

Lemma cut : forall (ns ns1 ns2 : list nat), ns = ns1 ++ ns2 -> length ns1 = length ns -> ns2 = [] /\ ns1 = ns.
Proof. intros ns ns1 ns2 -> L. rewrite app_length in L. destruct ns2; [|cbn in L; lia]. rewrite app_nil_r. auto. Qed.
Lemma F2len : forall A B (R : A -> B -> Prop) l m, Forall2 R l m -> length l = length m.
Proof. intros A B R l m H. induction H; cbn; congruence. Qed.
Lemma not_nil : forall (ns : list nat) (l : list argument), (length ns =? 0) = false -> Forall2 used ns l -> map shape_of l <> [].
Proof. intros ns l E F. apply F2len in F. apply Nat.eqb_neq in E. destruct l; [cbn in F; lia|discriminate]. Qed.
Ltac nada := intros ? ?; discriminate.

Lemma to_of : forall i o a, ar_in a = i -> ar_out a = o -> to i o (shape_of a).
Proof. intros i o a A B. split; auto. Qed.
Lemma from_of : forall i a, ar_in a = i -> from i (shape_of a).
Proof. auto. Qed.
Lemma map_nil : forall A B (f : A -> B) l, map f l = [] -> l = [].
Proof. intros A B f [|a l] H; [auto|discriminate]. Qed.
Lemma eqb_len : forall (ns : list nat) m, (length ns =? m) = true -> length ns = m.
Proof. intros. now apply Nat.eqb_eq. Qed.
Hint Resolve to_of from_of : ops.
Ltac cutting := match goal with E : _ = _ ++ _, L : length _ = length _ |- _ => let C := fresh in destruct (cut _ _ _ E L) as (_ & C); clear E L; subst end.
Ltac one := apply (make None); [intros ? Z; discriminate|cbn; split; [reflexivity|first [assumption|repeat first [assumption|apply Forall2_cons|apply Forall2_nil]]]|].
Lemma constrained_fwd : forall t o opts q u x fl ns, Y t (constrained t (length ns) o opts q) fl ns (u, x) ->
  fl = [] /\ t = q /\ exists l, Forall2 used ns l /\ map shape_of l <> [] /\ Forall (to q q) (map shape_of l) /\ u = q /\ x = Code o opts l [] None None.
Proof.
  intros t o opts q u x fl ns H. unfold constrained in H. fw H. cutting. subst. split; [auto|]. split; [auto|]. exists l. split; [auto|].
  split; [eapply not_nil; eauto|]. split; [|auto]. now apply forall_to.
Qed.
Lemma nums_fwd : forall t o fl ns u x, In o [OAddNum; OMul; OSub; ODiv; OMax; OMin] -> Y t (constrained t (length ns) o [] KNum) fl ns (u, x) -> compiles o (map tg_str fl) t ns u x.
Proof.
  intros t o fl ns u x J H. apply constrained_fwd in H. destruct H as (-> & -> & l & U & N & F & -> & ->). apply (make None); [intros ? Z; discriminate| |].
  - cbn in J. decompose [or] J; subst; try contradiction; (split; [reflexivity|exact U]).
  - now apply sig_nums.
Qed.
Lemma same_fwd : forall t o q out fl ns u x, Y t (same t o q out) fl ns (u, x) -> fl = [] /\ t = q /\ u = out /\ exists n a, ns = [n] /\ used n a /\ to q q (shape_of a) /\ x = Code o [] [a] [] None None.
Proof.
  intros t o q out fl ns u x H. unfold same in H. fw H. subst. repeat (split; [reflexivity|]). exists n, a. split; [auto|]. split; [auto|]. split; [split; auto|reflexivity].
Qed.
Lemma agnostic_fwd : forall t o q u x fl ns, Y t (agnostic (length ns) o q) fl ns (u, x) ->
  fl = [] /\ exists l, Forall2 used ns l /\ map shape_of l <> [] /\ Forall (to t q) (map shape_of l) /\ u = q /\ x = Code o [] l [] None None.
Proof.
  intros t o q u x fl ns H. unfold agnostic in H. fw H. cutting. subst. split; [auto|]. exists l. split; [auto|].
  split; [eapply not_nil; eauto|]. split; [|auto]. now apply forall_to.
Qed.
Lemma tuple_iff : forall t, is_tuple t = true <-> OpSpec.tuple t.
Proof.
  intros t. unfold OpSpec.tuple. split.
  - intros H. destruct t as [| | | | | |n]; try discriminate. cbn in H. destruct n as [|a [|b n]]; try discriminate; [destruct a as [|p]; try discriminate; repeat (destruct p; try discriminate)|].
    exists n. assert (E : a = 85%N /\ b = 95%N); [|destruct E as (-> & ->); reflexivity].
    destruct (N.eqb_spec a 85) as [->|NA]; [destruct (N.eqb_spec b 95) as [->|NB]; [auto|]|]; exfalso.
    + destruct b as [|p]; try discriminate H. repeat (destruct p; try discriminate H). congruence.
    + destruct a as [|p]; try discriminate H. repeat (destruct p; try discriminate H). congruence.
  - intros (x & ->). reflexivity.
Qed.
Lemma width_ok : forall t, OpSpec.width rep t (elements rep t).
Proof.
  intros t. unfold elements, OpSpec.width. destruct (rep t) as [| | | | | | [n [vs|fs]]]; try (right; split; [intros; discriminate|reflexivity]). left. eauto.
Qed.
Lemma width_fun : forall t n, OpSpec.width rep t n -> n = elements rep t.
Proof.
  intros t n [(x & fs & E & ->)|(N & ->)]; unfold elements; [now rewrite E|]. destruct (rep t) as [| | | | | | [m [vs|fs]]] eqn:E; auto. now destruct (N m fs).
Qed.
Lemma tuple_fwd : forall t o f out fl ns u x, Y t (tuple_op rep inject t o f out) fl ns (u, x) -> fl = [] /\ OpSpec.tuple t /\ u = out /\ exists n a w, ns = [n] /\ used n a /\ to t t (shape_of a) /\
  OpSpec.width rep t w /\ OpSpec.ready_in inject (f w) t out /\ x = Code o [] [a] [] None None.
Proof.
  intros t o f out fl ns u x H. unfold tuple_op in H. fw1 H. fw1 H; [|fw H]. fw1 H. destruct (inject (f (elements rep t)) t) as [v|e] eqn:R; fw H. apply tkey_eqb_eq in EB0. subst v fl. rewrite EN.
  split; [auto|]. split; [now apply tuple_iff|]. split; [auto|]. exists n, a, (elements rep t). split; [auto|]. split; [auto|]. split; [split; auto|]. split; [apply width_ok|]. split; [exact R|reflexivity].
Qed.
Lemma ifs_of : forall t l e, armed t (fun _ => True) l -> ar_in e = t -> forallb (fun a => tkey_eqb (ar_out e) (ar_out a)) (branches l) = true -> ifs t (ar_out e) (map shape_of (l ++ [e])).
Proof.
  intros t. assert (Z : forall n l e, length l <= n -> armed t (fun _ => True) l -> ar_in e = t -> forallb (fun a => tkey_eqb (ar_out e) (ar_out a)) (branches l) = true -> ifs t (ar_out e) (map shape_of (l ++ [e]))).
  { induction n as [|n IH]; intros l e L A I B.
    - destruct l; [|cbn in L; lia]. constructor. split; auto.
    - destruct l as [|p [|b l]]; [constructor; split; auto|destruct A|]. cbn in L, A, B. destruct A as (A1 & A2 & A3 & _ & A). apply andb_true_iff in B. destruct B as (B1 & B2). apply tkey_eqb_eq in B1.
      cbn [app map]. apply ifs_then; [split; auto|split; [auto|symmetry; exact B1]|]. apply IH; auto. lia. }
  intros l e. apply (Z (length l)). auto.
Qed.
Lemma rens_of : forall l, renamed l -> rens (map shape_of l).
Proof.
  assert (Z : forall n l, length l <= n -> renamed l -> rens (map shape_of l)).
  { induction n as [|n IH]; intros l L A; (destruct l as [|p [|b l]]; [constructor|destruct A|]); cbn in L; [lia|]. cbn in A. destruct A as (A1 & A2 & A3 & A4 & A).
    cbn [map]. apply rens_one; [destruct A2; [left|right]; split; auto|split; auto|apply IH; [lia|auto]]. }
  intros l. apply (Z (length l)). auto.
Qed.
Lemma field_iff : forall t x i u, OpSpec.field_of rep t x i u <-> exists n fs, rep t = TDef (TyDef n (TProduct fs)) /\ field_index x fs = Some (i, u).
Proof.
  intros t x i u. unfold OpSpec.field_of.
  assert (Z : forall fs i, field_index x fs = Some (i, u) <-> nth_error fs i = Some (x, u) /\ forall j y v, j < i -> nth_error fs j = Some (y, v) -> y <> x).
  { induction fs as [|[y v] fs IH]; intros j; cbn [field_index].
    - split; [discriminate|intros (H & _); destruct j; discriminate].
    - destruct (str_eqb_spec y x) as [->|NE].
      + split; [intros H; injection H as <- <-; split; [reflexivity|intros; lia]|]. intros (H & F). destruct j as [|j]; [injection H as <-; reflexivity|]. exfalso. apply (F 0 x v); [lia|reflexivity|reflexivity].
      + destruct (field_index x fs) as [[j' v']|] eqn:E.
        * split.
          -- intros H. injection H as <- <-. assert (Q : nth_error fs j' = Some (x, v') /\ forall j y v, j < j' -> nth_error fs j = Some (y, v) -> y <> x) by (destruct (IH j') as (IH1 & _); clear IH; specialize (IH1); revert IH1; intros IH1; apply IH1; reflexivity).
             destruct Q as (Q1 & Q2). split; [exact Q1|]. intros [|m] y' w L N; [injection N as <- <-; exact NE|]. cbn in N. eapply Q2; [|exact N]. lia.
          -- intros (H & F). destruct j as [|j]; [injection H as -> _; congruence|]. cbn in H. assert (Q : Some (j', v') = Some (j, u)); [|injection Q as -> ->; reflexivity].
             apply IH. split; [exact H|]. intros m y' w L N. apply (F (S m) y' w); [lia|exact N].
        * split; [discriminate|]. intros (H & F). destruct j as [|j]; [injection H as -> _; congruence|]. exfalso. assert (Q : None = Some (j, u)); [|discriminate].
          apply IH. split; [exact H|]. intros m y' w L N. apply (F (S m) y' w); [lia|exact N]. }
  split; intros (n & fs & E & H); exists n, fs; (split; [exact E|]); apply Z; exact H.
Qed.
Lemma accessor_fwd : forall t v a p fl ns y, Y t (accessor g rep v a p) fl ns y -> exists x i u, sh_text (shape_of a) = Some x /\ OpSpec.field_of rep v x i u /\ Y t (p i u) fl ns y.
Proof.
  intros t v a p fl ns y H. unfold accessor in H. destruct (rep v) as [| | | | | | [n [vs|fs]]] eqn:R; try (apply -> Y_fail in H; destruct H). destruct (Ops.text g a) as [x|e] eqn:T; cbn [ok] in H; [|apply -> Y_fail in H; destruct H].
  destruct (field_index x fs) as [[i u]|] eqn:F; [|apply -> Y_fail in H; destruct H]. exists x, i, u. split; [now apply text_some|]. split; [apply field_iff; eauto|exact H].
Qed.
Lemma accessor_bwd : forall t v a p fl ns y x i u, sh_text (shape_of a) = Some x -> OpSpec.field_of rep v x i u -> Y t (p i u) fl ns y -> Y t (accessor g rep v a p) fl ns y.
Proof.
  intros t v a p fl ns y x i u T F H. apply field_iff in F. destruct F as (n & fs & R & F). apply text_some in T. unfold accessor. rewrite R, T. cbn [ok]. now rewrite F.
Qed.
Lemma binds_of : forall t ns l vs, bound g c t rep ns l vs -> binds code g rep c t ns l vs /\ Forall (from t) (map shape_of l).
Proof.
  intros t ns l vs H. induction H as [|n m a v ns l vs U I M KN H (IH1 & IH2)]; [split; constructor|]. split; [constructor; auto|]. cbn. constructor; auto.
Qed.
Lemma binds_last : forall t ns l vs n v, bound g c t rep ns l vs -> makes code g c n (rep t) v -> binds code g rep c t (ns ++ [n]) l (vs ++ [v]).
Proof.
  intros t ns l vs n v H M. induction H as [|n' m a w ns l vs U I Mk KN H IH]; [now constructor|]. cbn. constructor; auto.
Qed.
Lemma fields_ok : forall d v, fields_of d v (init_fields d v).
Proof.
  intros [n [vs|fs]] v; unfold fields_of, init_fields; [right|left; eauto]. exists n, vs. split; [reflexivity|]. destruct (nth_error vs v) as [[x [fs|]]|] eqn:E; [left; eauto|right|right]; (split; [reflexivity|intros; congruence]).
Qed.
Lemma fields_fun : forall d v fs, fields_of d v fs -> fs = init_fields d v.
Proof.
  intros d v fs [(n & ->)|(n & vs & -> & [(x & E)|(-> & N)])]; cbn; [reflexivity|now rewrite E|]. destruct (nth_error vs v) as [[x [fs|]]|]; auto. now destruct (N x fs).
Qed.
Lemma fwd : forall t o fl ns u x, Y t (op_prog g rep types format inject t (length ns) o) fl ns (u, x) -> compiles o (map tg_str fl) t ns u x.
Proof.
  intros t o fl ns u x H.
  destruct o; cbn [op_prog] in H; try (apply nums_fwd in H; [exact H|cbn; tauto]);
  try (apply same_fwd in H; destruct H as (-> & EQ & -> & n & a & -> & U & T & ->); one; rewrite EQ; (apply sig_cmp || apply sig_eq); [cbn; tauto|exact T]);
  try (unfold unary, counted in H; fw H; subst; one; (apply sig_str || apply sig_len_str || apply sig_to_str_bool || apply sig_not || apply sig_ls_tab || apply sig_count_str || apply sig_count_tab || apply sig_round || apply sig_finite || apply sig_root || apply sig_benchmark || apply sig_to_str || apply sig_filter_str); solve [cbn; auto with ops]).

  - (* OAddStr *) apply constrained_fwd in H. destruct H as (-> & -> & l & U & N & F & -> & ->). one. now apply sig_add_str.
  - (* OAddTab *)
    assert (K : forall fl0 ws opts opts', Y t (constrained t (length ns) OAddTab opts' KTab) fl0 ns (u, x) -> opts' = map (fun x => Some (lit x)) opts ->
      (forall fl1, fl1 = [] -> fl0 = fl1 -> flags ws (map tg_str fl)) -> In (ws, opts) [([], []); (["cols"], ["cols"]); (["union"], []); (["intersect"], ["intersect"]);
        (["cols"; "union"], ["cols"]); (["cols"; "intersect"], ["cols"; "intersect"])]%string -> compiles OAddTab (map tg_str fl) t ns u x).
    { intros fl0 ws opts opts' HC -> Q J. apply constrained_fwd in HC. destruct HC as (E & -> & l & U & N & F & -> & ->). one. eapply (sig_add_tab _ _ _ _ _ _ ws opts); eauto. }
    fw1 H; fw1 H; cbn [opt app] in H.
    + eapply (K _ ["cols"; "union"]%string ["cols"]%string); [exact H|reflexivity|intros; subst; unfold flags; cbn in *; rewrite <- EP, <- EP0; reflexivity|cbn; tauto].
    + fw1 H.
      * eapply (K _ ["cols"; "intersect"]%string ["cols"; "intersect"]%string); [exact H|reflexivity|intros; subst; unfold flags; cbn in *; rewrite <- EP, <- EP1; reflexivity|cbn; tauto].
      * eapply (K _ ["cols"]%string ["cols"]%string); [exact H|reflexivity|intros; subst; unfold flags; cbn in *; exact EP|cbn; tauto].
    + eapply (K _ ["union"]%string []); [exact H|reflexivity|intros; subst; unfold flags; cbn in *; exact EP0|cbn; tauto].
    + fw1 H.
      * eapply (K _ ["intersect"]%string ["intersect"]%string); [exact H|reflexivity|intros; subst; unfold flags; cbn in *; exact EP1|cbn; tauto].
      * eapply (K _ [] []); [exact H|reflexivity|intros; subst; unfold flags; cbn in *; reflexivity|cbn; tauto].
  - (* OCmp *) apply tuple_fwd in H. destruct H as (-> & TU & -> & n & a & w & -> & U & TO & W & R & ->). one. eapply sig_cmp_tuple; eauto.
  - (* OEq *) apply tuple_fwd in H. destruct H as (-> & TU & -> & n & a & w & -> & U & TO & W & R & ->). one. eapply sig_eq_tuple; eauto.
  - (* OTypify *) fw H; subst; one.
    + eapply (sig_typify _ _ _ _ _ _ ["verbose"%string]); [cbn; auto|exact EP|auto with ops].
    + eapply (sig_typify _ _ _ _ _ _ []); [cbn; auto|constructor|auto with ops].
  - (* OLs *) fw H; subst; one; [apply sig_ls|apply sig_ls_path; auto with ops].
  - (* OOpen *) fw H. apply Y_flag_type in H. destruct fl as [|f fl].
    + fw H. subst. one. apply sig_open. auto with ops.
    + destruct H as (q & Q & H). destruct q; fw H; subst; one; (refine (sig_open_as rep (type_flag types) format (OpSpec.ready_in inject) None t (shape_of a) (tg_str f) _ Q _ _); [cbn; auto|auto with ops]).
  - (* OSave *) fw H. subst. one. apply sig_save; [intros ->; cbn in EB; discriminate|auto with ops].
  - (* OAnd *) apply agnostic_fwd in H. destruct H as (-> & l & U & N & F & -> & ->). one. apply sig_bools; cbn; auto.
  - (* OIf *)
    fw H. apply -> (Y_arms _ G) in H. destruct H as (ns1 & ns2 & l & E & L & U & A & H). fw H. subst. cbn [app] in *.
    apply (make None); [intros ? Z; discriminate| |].
    + split; [reflexivity|]. apply Forall2_app; [exact U|]. constructor; [exact U0|constructor].
    + apply sig_if. apply ifs_of; auto.
  - (* OOr *) apply agnostic_fwd in H. destruct H as (-> & l & U & N & F & -> & ->). one. apply sig_bools; cbn; auto.
  - (* OAppend *)
    fw H. apply -> (Y_appends _ G) in H. destruct H as (ns1 & ns2 & l & E & L & U & A & H). cbn [app] in H. fw H. cutting. subst.
    assert (LE : length fl <= length l). { apply F2len in U. rewrite <- U. destruct (Nat.le_gt_cases (length fl) (length ns)) as [|Z]; [auto|]. apply (f_equal (@length _)) in EF. rewrite skipn_length in EF. cbn in EF. lia. }
    rewrite firstn_all2 by (apply F2len in U; lia). apply (make None); [intros ? Z; discriminate|split; [reflexivity|exact U]|].
    replace (length ns - length fl) with (length (map shape_of l) - length (map tg_str fl)) by (rewrite !map_length; apply F2len in U; lia).
    apply sig_append; [eapply not_nil; eauto|rewrite Forall_map; exact A|now rewrite !map_length].
  - (* OAppendRow *) fw H. cutting. subst. apply (make None); [intros ? Z; discriminate|split; [reflexivity|exact U]|]. apply sig_append_row. rewrite Forall_map. exact A.
  - (* ODedupTab *) fw1 H; fw1 H; fw1 H.
    + fw H. subst. one. apply sig_dedup_tab. constructor.
    + unfold colnames in H. fw H. cutting. subst. apply (make None); [intros ? Z; discriminate|split; [reflexivity|exact U]|]. apply sig_dedup_tab. now apply forall_to.
  - (* OFilterStr *) fw H. subst. one. apply sig_filter_str. auto with ops.
  - (* OFilterTab *)
    fw1 H; fw1 H; fw1 H.
    + fw H. subst. apply (make None); [intros ? Z; discriminate| |apply sig_filter_cols; [exact EP|auto with ops]].
      split; [reflexivity|]. split; [repeat first [assumption|apply Forall2_cons|apply Forall2_nil]|]. intros; discriminate.
    + fw1 H.
      * fw H. subst. apply (make None); [intros ? Z; discriminate| |apply sig_filter_rows; auto with ops].
        split; [reflexivity|]. split; [repeat first [assumption|apply Forall2_cons|apply Forall2_nil]|]. intros; discriminate.
      * fw H. apply Y_flag_type in H.
        assert (NF : forall f, f = map tg_str fl -> ~ flags ["cols"%string] f) by (intros f -> Z; apply EP; apply (Permutation_in _ Z); now left).
        destruct fl as [|f fl].
        -- apply -> (Y_flagged _ G) in H. destruct H as (m & ns' & b & -> & U2 & I2 & O2 & H). fw H. subst. apply (make None); [intros ? Z; discriminate| |].
           ++ split; [reflexivity|]. split; [repeat first [assumption|apply Forall2_cons|apply Forall2_nil]|]. intros _ n' m' a' b' E1 E2. injection E1 as <- <-. injection E2 as -> ->. exact I2.
           ++ apply (sig_filter_col rep (type_flag types) format (OpSpec.ready_in inject) None [] (shape_of a) (shape_of b)); [now apply NF|now left|auto with ops|exact O2].
        -- destruct H as (q & Q & H). apply -> (Y_flagged _ G) in H. destruct H as (m & ns' & b & -> & U2 & I2 & O2 & H). fw H. subst. apply (make None); [intros ? Z; discriminate| |].
           ++ split; [reflexivity|]. split; [repeat first [assumption|apply Forall2_cons|apply Forall2_nil]|]. intros Z; discriminate.
           ++ apply (sig_filter_col rep (type_flag types) format (OpSpec.ready_in inject) None [tg_str f] (shape_of a) (shape_of b)); [now apply NF|right; exists (tg_str f), q; auto|auto with ops|exact O2].
  - (* OFold *)
    fw H.
    lazymatch type of H with OpsBase.Y _ _ _ _ _ (PNext (ok (fun b => PDecouple b (PSupplied b _ (ok (fun b => PConcrete b (ok ?K))))))) _ _ _ =>
      change (Y t (PNext (ok (fun b => asks [DD; DS (Some KNil)] b K))) fl ns (u, x)) in H end.
    apply -> (Y_asks _ G) in H. destruct H as (n & ns' & a & -> & (U & M & _) & H). apply Forall_cons_iff in M. destruct M as (M1 & M). apply Forall_cons_iff in M. destruct M as (M2 & _). cbn in M1, M2.
    fw1 H. apply -> Y_inject_next in H. destruct H as (m & ns2 & w & sl & E & D & H). fw H. injection E as -> ->. subst. cbn [some_slot fst snd].
    apply (make None); [intros ? Z; discriminate| |eapply sig_fold; auto with ops].
    exists n, m, (w, Some sl). split; [reflexivity|]. split; [reflexivity|]. split; [repeat first [assumption|apply Forall2_cons|apply Forall2_nil]|]. split; [exists w, sl; auto|].
    intros a' b' E. injection E as <- <-. exact M1.
  - (* OFoldWhile *)
    fw H. apply -> Y_inject_next in H. destruct H as (m & ns2 & w & sl & E & D & H). fw H. injection E as -> ->. apply -> Y_inject_next in H. destruct H as (m2 & ns3 & w2 & sl2 & E2 & D2 & H). fw H. injection E2 as -> ->.
    subst. cbn [some_slot fst snd] in *.
    apply (make None); [intros ? Z; discriminate| |eapply sig_fold_while; auto with ops].
    exists n, m, m2, (w, Some sl), (w2, Some sl2). split; [reflexivity|]. split; [reflexivity|]. split; [repeat first [assumption|apply Forall2_cons|apply Forall2_nil]|]. split; [exists w, sl; auto|exists w2, sl2; auto].
  - (* OGrp *) unfold colnames in H. fw H. cutting. subst. apply (make None); [intros ? Z; discriminate|split; [reflexivity|exact U]|]. apply sig_columns; [cbn; auto|eapply not_nil; eauto|now apply forall_to].
  - (* OGrpBy *) fw H. unfold cmp_cmd in H. destruct (inject InjCmp (ar_out a)) as [v|e] eqn:R; fw H. apply tkey_eqb_eq in EB. subst. one. apply sig_by; [cbn; auto|auto with ops|exact R].
  - (* OMap *)
    fw H.
    lazymatch type of H with OpsBase.Y _ _ _ _ _ (PNext (ok (fun b => PDecouple b (PSupplied b _ (ok (fun b => PReturns b _ (ok (fun b => PConcrete b (ok ?K))))))))) _ _ _ =>
      change (Y t (PNext (ok (fun b => asks [DD; DS (Some KNil); DR (fun _ => KStr)] b K))) fl ns (u, x)) in H end.
    apply -> (Y_asks _ G) in H. destruct H as (n & ns' & a & -> & (U & M & _) & H). apply Forall_cons_iff in M. destruct M as (M1 & M). apply Forall_cons_iff in M. destruct M as (M2 & M). apply Forall_cons_iff in M. destruct M as (M3 & _). cbn in M1, M2, M3.
    assert (K : forall fl0 q force, Y t (inject_next "row" TTabRow (fun v => PVarsAdded (flagged_arg q None (fun b => PEval KTab (Code OMap (opt "force" force) [a; b] [some_slot v] (Some (ar_in b)) None))))) fl0 ns' (u, x) ->
      fl0 = [] /\ u = KTab /\ exists m b v, ns' = [m] /\ used m b /\ row code c m v /\ x = Code OMap (opt "force" force) [a; b] [v] (Some (ar_in b)) None /\ match q with Some q => ar_in b = key_of q | None => typed c m TyGraph.In_ (ar_in b) end).
    { intros fl0 q force HH. apply -> Y_inject_next in HH. destruct HH as (m & ns2 & w & sl & E2 & D & HH). rewrite E2 in *. fw1 HH. apply -> (Y_flagged _ G) in HH. destruct HH as (m' & ns3 & b & E & U2 & I2 & _ & HH). injection E as <- <-. fw HH. subst.
      split; [auto|]. split; [auto|]. exists m, b, (w, Some sl). repeat (split; [auto; exists w, sl; auto|]). exact I2. }
    assert (UU : forall fl m b v, used m b -> row code c m v -> (fl = [] -> typed c m TyGraph.In_ (ar_in b)) -> uses OMap fl t [n; m] [a; b] [v]).
    { intros fl0 m b v U2 R T. exists n, m, v. split; [reflexivity|]. split; [reflexivity|]. split; [repeat first [assumption|apply Forall2_cons|apply Forall2_nil]|]. split; [exact R|].
      split; [intros a' b' E; injection E as <- <-; exact M1|]. intros Z a' b' E. injection E as <- <-. auto. }
    fw1 H.
    + apply (K _ _ true) in H. destruct H as (-> & -> & m & b & v & -> & U2 & R & -> & I2). rewrite I2 in *. cbn [opt]. apply (make None); [intros ? Z; discriminate|apply UU; auto; intros Z|].
      * exfalso. rewrite Z in EP. apply Permutation_sym, Permutation_nil in EP. discriminate.
      * subst t. apply sig_map_force; [exact EP|auto with ops|auto with ops].
    + assert (NF : forall f, f = map tg_str fl -> ~ flags ["force"%string] f) by (intros f -> Z; apply EP; apply (Permutation_in _ Z); now left).
      apply -> Y_flag_type in H. destruct fl as [|f fl].
      * apply (K _ _ false) in H. destruct H as (_ & -> & m & b & v & -> & U2 & R & -> & I2). cbn [opt]. apply (make None); [intros ? Z; discriminate|apply UU; auto|].
        subst t. apply (sig_map rep (type_flag types) format (OpSpec.ready_in inject) None [] (shape_of a) (shape_of b)); [now apply NF|now left|auto with ops].
      * destruct H as (q & Q & H). apply (K _ _ false) in H. destruct H as (-> & -> & m & b & v & -> & U2 & R & -> & I2). cbn [opt]. apply (make None); [intros ? Z; discriminate|apply UU; auto; discriminate|].
        subst t. apply (sig_map rep (type_flag types) format (OpSpec.ready_in inject) None [tg_str f] (shape_of a) (shape_of b)); [now apply NF|right; exists (tg_str f), q; auto|auto with ops].
  - (* OPick *)
    assert (K : forall fl0 opts, Y t (colnames (length ns) (fun l => PEval KTab (Code OPick (map (fun x => Some (lit x)) opts) l [] None None))) fl0 ns (u, x) ->
      fl0 = [] /\ (flags opts (map tg_str fl) -> In opts [[]; ["add"]; ["trail"]; ["add"; "trail"]]%string -> compiles OPick (map tg_str fl) t ns u x)).
    { intros fl0 opts HH. unfold colnames in HH. fw HH. cutting. subst. split; [auto|]. intros Q J. apply (make None); [intros ? Z; discriminate|split; [reflexivity|exact U]|].
      apply sig_pick; [exact J|exact Q|eapply not_nil; eauto|now apply forall_to]. }
    fw1 H; fw1 H; cbn [opt app] in H; [apply (K _ ["add"; "trail"]%string) in H|apply (K _ ["add"]%string) in H|apply (K _ ["trail"]%string) in H|apply (K _ []) in H];
      destruct H as (-> & H); (apply H; [unfold flags; cbn in *|cbn; tauto]).
    + rewrite <- EP, <- EP0. reflexivity.
    + exact EP.
    + exact EP0.
    + reflexivity.
  - (* ORen *)
    fw H. apply -> (Y_renames _ G) in H. destruct H as (ns1 & ns2 & l & E & L & U & A & H). fw H. subst. rewrite app_nil_r in *. apply (make None); [intros ? Z; discriminate|split; [reflexivity|exact U]|].
    apply sig_ren. now apply rens_of.
  - (* ORenWith *)
    fw H. apply -> Y_flag_type in H. destruct fl as [|f fl].
    + apply -> (Y_flagged _ G) in H. destruct H as (m & ns' & b & -> & U2 & I2 & O2 & H). fw H. subst. apply (make None); [intros ? Z; discriminate| |].
      * split; [reflexivity|]. split; [repeat first [assumption|apply Forall2_cons|apply Forall2_nil]|]. intros _ n' m' a' b' E1 E2. injection E1 as <- <-. injection E2 as -> ->. exact I2.
      * apply (sig_ren_with rep (type_flag types) format (OpSpec.ready_in inject) None [] (shape_of a) (shape_of b)); [now left|auto with ops|exact O2].
    + destruct H as (q & Q & H). apply -> (Y_flagged _ G) in H. destruct H as (m & ns' & b & -> & U2 & I2 & O2 & H). fw H. subst. apply (make None); [intros ? Z; discriminate| |].
      * split; [reflexivity|]. split; [repeat first [assumption|apply Forall2_cons|apply Forall2_nil]|]. intros Z; discriminate.
      * apply (sig_ren_with rep (type_flag types) format (OpSpec.ready_in inject) None [tg_str f] (shape_of a) (shape_of b)); [right; exists (tg_str f), q; auto|auto with ops|exact O2].
  - (* ORevTab *) unfold by_cols in H. fw H; subst; one; [apply (sig_rev_tab _ _ _ _ _ ["cols"%string]); [cbn; auto|exact EP]|apply (sig_rev_tab _ _ _ _ _ []); [cbn; auto|constructor]].
  - (* OSort *) unfold colnames in H. fw H. cutting. subst. apply (make None); [intros ? Z; discriminate|split; [reflexivity|exact U]|]. apply sig_columns; [cbn; auto|eapply not_nil; eauto|now apply forall_to].
  - (* OSortBy *) fw H. unfold cmp_cmd in H. destruct (inject InjCmp (ar_out a)) as [v|e] eqn:R; fw H. apply tkey_eqb_eq in EB. subst. one. apply sig_by; [cbn; auto|auto with ops|exact R].
  - (* OGetRow *)
    fw1 H. fw1 H. fw1 H.
    + fw H. subst. one. apply sig_get_default; auto with ops.
    + apply -> Y_flag_type in H. destruct fl as [|f fl].
      * apply -> (Y_wants _ G) in H; [|exact HK]. destruct H as (w & W & H). fw H. subst. apply (make (Some w)); [intros v Z; injection Z as <-; exact W|split; [reflexivity|repeat first [assumption|apply Forall2_cons|apply Forall2_nil]]|].
        apply sig_get_want; auto with ops.
      * destruct H as (q & Q & H). fw H. subst. one. apply (sig_get_flag rep (type_flag types) format (OpSpec.ready_in inject) None (shape_of a) (tg_str f) q); auto with ops.
  - (* OGet *)
    fw H. apply accessor_fwd in H. destruct H as (xt & i & q & T & F & H). fw H. subst. one. eapply sig_get; [auto with ops|exact T|exact F].
  - (* ODot *)
    fw1 H. assert (CS : ar_out a = KTabRow \/ ar_out a <> KTabRow) by (destruct (ar_out a); auto; right; discriminate). destruct CS as [CS|CS].
    + rewrite CS in H.
      lazymatch type of H with OpsBase.Y _ _ _ _ _ (PNext (ok (fun b => PSupplied b _ (ok (fun b => PReturns b _ (ok (fun b => PConcrete b (ok ?K)))))))) _ _ _ =>
        change (Y t (arg (Some KNil) KStr K) fl ns0 (u, x)) in H end.
      fw1 H. apply -> (Y_wants _ G) in H; [|exact HK]. destruct H as (w & W & H). fw H. subst.
      apply (make (Some w)); [intros v Z; injection Z as <-; exact W|split; [reflexivity|repeat first [assumption|apply Forall2_cons|apply Forall2_nil]]|]. apply sig_dot_row; auto with ops.
    + assert (H' : Y t (any_arg (Some KNil) (fun f => accessor g rep (ar_out a) f (fun i u => PEval (key_of u) (Code ODot [] [a; f] [] None (Some i))))) fl ns0 (u, x)) by (destruct (ar_out a); try congruence; exact H).
      clear H. rename H' into H. fw1 H. apply accessor_fwd in H. destruct H as (xt & i & q & T & F & H). fw H. subst. one. eapply sig_dot; [auto with ops|auto with ops|exact CS|exact T|exact F].
  - (* OIn *) fw H. subst. one. apply sig_in. auto with ops.
  - (* OLenTab *) unfold by_cols in H. fw H; subst; one; [apply (sig_len_tab _ _ _ _ _ ["cols"%string]); [cbn; auto|exact EP]|apply (sig_len_tab _ _ _ _ _ []); [cbn; auto|constructor]].
  - (* OLet *)
    fw H. apply -> (Y_lets _ G) in H. destruct H as (ns1 & ns2 & l & vs & E & L & B & H). cbn [app] in H. fw1 H.
    + fw H. subst. rewrite app_nil_r in *. destruct (binds_of _ _ _ _ B) as (B1 & B2). apply (make None); [intros ? Z; discriminate|exact B1|]. apply sig_let. exact B2.
    + apply -> (Y_make _ G) in H. destruct H as (n & ns' & v & -> & M & KN & H). fw H. subst. destruct (binds_of _ _ _ _ B) as (B1 & B2). apply (make None); [intros ? Z; discriminate| |].
      * now apply binds_last.
      * apply sig_let. exact B2.
  - (* ONthTab *) fw H. subst. one. apply sig_nth_tab; auto with ops.
  - (* ORand *)
    fw H. subst. rewrite app_nil_r in *. apply forall_to in A. pose proof (F2len _ _ _ _ _ U) as L2. destruct (length ns0 =? 3) eqn:E3.
    + apply Nat.eqb_eq in E3. cbn [app]. apply (make None); [intros ? Z; discriminate|split; [reflexivity|exact U]|]. apply sig_rand_tab; [rewrite map_length; lia|exact A].
    + apply Nat.eqb_neq in E3. cbn [app]. apply (make None); [intros ? Z; discriminate|split; [reflexivity|exact U]|]. apply sig_rand; [|exact A]. rewrite map_length. destruct (Nat.leb_spec (length ns0) 3); lia.
  - (* ORange *)
    fw H; subst; one.
    + apply andb_true_iff in EB. destruct EB as (_ & EB). apply tkey_eqb_eq in EB. rewrite EB in *. apply sig_range_to. auto with ops.
    + apply sig_range; auto with ops.
  - (* OTable *) fw H. cutting. subst. apply (make None); [intros ? Z; discriminate|split; [reflexivity|exact U]|]. apply sig_table. now apply forall_to.
  - (* OToStrNum *)
    fw H; [subst; one; apply sig_to_str_num|]. destruct (Ops.text g a) as [xt|e] eqn:T; fw H. subst. one. apply text_some in T. eapply sig_to_str_format; [auto with ops|exact T|exact EB0].
  - (* OTuple *)
    fw H. cutting. subst. apply Nat.ltb_ge in EB. apply (make None); [intros ? Z; discriminate|split; [reflexivity|exact U]|]. cbn [app].
    rewrite <- (map_map shape_of (fun s => rep (sh_out s)) l) || (replace (map (fun a => rep (ar_out a)) l) with (map (fun a => rep (sh_out a)) (map shape_of l)) by (rewrite map_map; reflexivity)).
    apply sig_tuple; [rewrite map_length; apply F2len in U; lia|rewrite Forall_map; exact A].
  - (* OInit *)
    apply -> (Y_inits _ G) in H. destruct H as (ns1 & ns2 & l & E & U & A & H). fw H. subst. rewrite app_nil_r. cbn [app]. apply (make None); [intros ? Z; discriminate|split; [reflexivity|exact U]|].
    eapply sig_init; [apply fields_ok|]. clear - A. induction A as [|f a fs l (A1 & A2) A IH]; constructor; [split; auto|exact IH].
Qed.

(** ** From the table to the model *)
Lemma map_1 : forall l a, map shape_of l = [a] -> exists x, l = [x] /\ a = shape_of x.
Proof. intros l a H. destruct l as [|x [|y l]]; try discriminate. injection H as <-. eauto. Qed.
Lemma map_2 : forall l a b, map shape_of l = [a; b] -> exists x y, l = [x; y] /\ a = shape_of x /\ b = shape_of y.
Proof. intros l a b H. destruct l as [|x [|y [|z l]]]; try discriminate. injection H as <- <-. eauto. Qed.
Lemma map_3 : forall l a b d, map shape_of l = [a; b; d] -> exists x y z, l = [x; y; z] /\ a = shape_of x /\ b = shape_of y /\ d = shape_of z.
Proof. intros l a b d H. destruct l as [|x [|y [|z [|? l]]]]; try discriminate. injection H as <- <- <-. eauto 8. Qed.
Lemma F2nil : forall ns, Forall2 used ns [] -> ns = [].
Proof. intros ns H. now inversion H. Qed.
Lemma F2cons : forall ns a l, Forall2 used ns (a :: l) -> exists n ms, ns = n :: ms /\ used n a /\ Forall2 used ms l.
Proof. intros ns a l H. inversion H; subst. eauto. Qed.
Lemma F2cc : forall n ns a l, Forall2 used (n :: ns) (a :: l) -> used n a /\ Forall2 used ns l.
Proof. intros n ns a l H. inversion H; subst. auto. Qed.
Ltac shapes :=
  repeat match goal with
  | H : [] = map shape_of _ |- _ => symmetry in H; apply map_nil in H; subst
  | H : [_] = map shape_of _ |- _ => symmetry in H; apply map_1 in H; let x := fresh "x" in destruct H as (x & -> & ->)
  | H : [_; _] = map shape_of _ |- _ => symmetry in H; apply map_2 in H; let x := fresh "x" in let y := fresh "y" in destruct H as (x & y & -> & -> & ->)
  | H : [_; _; _] = map shape_of _ |- _ => symmetry in H; apply map_3 in H; let x := fresh "x" in let y := fresh "y" in let z := fresh "z" in destruct H as (x & y & z & -> & -> & -> & ->)
  | H : [] = map tg_str _ |- _ => symmetry in H; apply map_nil in H; subst
  | H : Forall2 used _ [] |- _ => apply F2nil in H; subst
  | H : Forall2 used (_ :: _) (_ :: _) |- _ => apply F2cc in H; destruct H as (? & H)
  | H : Forall2 used _ (_ :: _) |- _ => apply F2cons in H; let n := fresh "n" in let ms := fresh "ms" in destruct H as (n & ms & -> & ? & H)
  | H : to _ _ (shape_of _) |- _ => destruct H as (? & ?); cbn [sh_in sh_out shape_of] in *
  | H : from _ (shape_of _) |- _ => unfold from in H; cbn [sh_in sh_out shape_of] in *
  | H : Detail _ _ _ = _ |- _ => unfold none, opted, typed_as in H; injection H as ? ? ?; subst
  | H : _ = Detail _ _ _ |- _ => unfold none, opted, typed_as in H; injection H as ? ? ?; subst
  end.
Ltac bw1 :=
  cbn [ok length Nat.eqb];
  lazymatch goal with
  | |- OpsBase.Y _ _ _ _ _ (PEval _ _) _ _ _ => apply Y_eval; auto
  | |- OpsBase.Y _ _ _ _ _ (PSays _ _) _ _ _ => apply Y_says
  | |- OpsBase.Y _ _ _ _ _ (PAnon _ _) _ _ _ => apply Y_anon
  | |- OpsBase.Y _ _ _ _ _ (PAddsVars _ _) _ _ _ => apply Y_adds
  | |- OpsBase.Y _ _ _ _ _ (PVarsAdded _) _ _ _ => apply Y_added
  | |- OpsBase.Y _ _ _ _ _ (POblige _ _) _ _ _ => apply Y_oblige
  | |- OpsBase.Y _ _ _ _ _ (assert_input _ _ _) _ _ _ => apply Y_assert; split; [reflexivity|]
  | |- OpsBase.Y _ _ _ _ _ (arg _ _ _) _ (?n :: ?ms) _ => match goal with U : OpSpec.used _ _ _ n ?a |- _ => apply (Y_arg _ G); exists n, ms, a; split; [reflexivity|]; split; [assumption|]; split; [cbn [dflt]; first [assumption|congruence]|]; split; [first [assumption|congruence]|] end
  | |- OpsBase.Y _ _ _ _ _ (any_arg _ _) _ (?n :: ?ms) _ => match goal with U : OpSpec.used _ _ _ n ?a |- _ => apply (Y_any_arg _ G); exists n, ms, a; split; [reflexivity|]; split; [assumption|]; split; [cbn [dflt]; first [assumption|congruence]|] end
  end.
Ltac bw := repeat bw1.
Lemma args_bwd : forall t ns l i o p y fl, Forall2 used ns l -> Forall (to (dflt t i) o) (map shape_of l) -> Y t (p l) fl [] y -> Y t (args (length ns) i o [] p) fl ns y.
Proof. intros t ns l i o p y fl U A H. apply (Y_args _ G). exists ns, [], l. rewrite app_nil_r. split; [auto|]. split; [auto|]. split; [auto|]. split; [now apply forall_to|exact H]. Qed.
Lemma any_args_bwd : forall t ns l i p y fl, Forall2 used ns l -> Forall (from (dflt t i)) (map shape_of l) -> Y t (p l) fl [] y -> Y t (any_args (length ns) i [] p) fl ns y.
Proof. intros t ns l i p y fl U A H. apply (Y_any_args _ G). exists ns, [], l. rewrite app_nil_r. split; [auto|]. split; [auto|]. split; [auto|]. split; [rewrite Forall_map in A; exact A|exact H]. Qed.
Lemma some_len : forall ns l, Forall2 used ns l -> map shape_of l <> [] -> (length ns =? 0) = false.
Proof. intros ns l U N. apply Nat.eqb_neq. apply F2len in U. destruct l; [now destruct N|]. cbn in U. lia. Qed.
Lemma constrained_bwd : forall o opts q ns l, Forall2 used ns l -> map shape_of l <> [] -> Forall (to q q) (map shape_of l) ->
  Y q (constrained q (length ns) o opts q) [] ns (q, Code o opts l [] None None).
Proof. intros o opts q ns l U N A. unfold constrained. bw. rewrite (some_len _ _ U N). bw. eapply args_bwd; eauto. bw. Qed.
Lemma colnames_bwd : forall t ns l p y fl, Forall2 used ns l -> map shape_of l <> [] -> Forall (to KNil KStr) (map shape_of l) -> Y t (p l) fl [] y -> Y t (colnames (length ns) p) fl ns y.
Proof. intros t ns l p y fl U N A H. unfold colnames. rewrite (some_len _ _ U N). eapply args_bwd; eauto. Qed.
Lemma tuple_bwd : forall t o f out n x w, OpSpec.tuple t -> OpSpec.width rep t w -> OpSpec.ready_in inject (f w) t out -> used n x -> ar_in x = t -> ar_out x = t ->
  Y t (tuple_op rep inject t o f out) [] [n] (out, Code o [] [x] [] None None).
Proof.
  intros t o f out n x w T W R U I O. apply tuple_iff in T. apply width_fun in W. subst w. unfold tuple_op. bw. rewrite T. bw. rewrite R, tkey_refl. bw.
Qed.
Ltac pick_o H := cbn [In] in H; repeat (destruct H as [H|H]; [first [injection H as <- <-|subst]|]); [..|destruct H].
Ltac plain U := cbn [OpSpec.uses] in U; destruct U as (-> & U).
Ltac notin := let Z := fresh "Z" in intros Z; cbn in Z; repeat (destruct Z as [Z|Z]; [discriminate|]); destruct Z.
Ltac flag Q := first [eapply named_true; [exact Q|let f := fresh "f" in clear Q; intros f Q]|eapply named_false; [exact Q|notin|]].
Ltac endflag Q := apply Permutation_nil, map_nil in Q; subst.
Lemma map_flag : forall l f, [f] = map tg_str l -> exists x, l = [x] /\ f = tg_str x.
Proof. intros l f H. destruct l as [|x [|y l]]; try discriminate. injection H as ->. eauto. Qed.
Lemma even_odd : forall n, Nat.even (S (n + n)) = false.
Proof. induction n as [|n IH]; [reflexivity|]. replace (S (S n + S n)) with (S (S (S (n + n)))) by lia. exact IH. Qed.
Lemma even_even : forall n, Nat.even (n + n) = true.
Proof. induction n as [|n IH]; [reflexivity|]. replace (S n + S n) with (S (S (n + n))) by lia. exact IH. Qed.
Lemma half : forall n, Nat.div2 (n + n) = n.
Proof. intros n. replace (n + n) with (2 * n) by lia. apply Nat.div2_double. Qed.
Lemma half_odd : forall n, Nat.div2 (S (n + n)) = n.
Proof. intros n. replace (S (n + n)) with (S (2 * n)) by lia. apply Nat.div2_succ_double. Qed.
Lemma ifs_back : forall t u xs, ifs t u (map shape_of xs) -> exists n l e, xs = l ++ [e] /\ length l = n + n /\ armed t (fun _ => True) l /\ ar_in e = t /\ ar_out e = u /\ forallb (fun a => tkey_eqb (ar_out e) (ar_out a)) (branches l) = true.
Proof.
  intros t u xs H. remember (map shape_of xs) as ls eqn:E. revert xs E. induction H as [a (A1 & A2)|p a l (P1 & P2) (A1 & A2) H IH]; intros xs E.
  - shapes. exists 0, [], x. cbn in *. auto 7.
  - destruct xs as [|x [|y xs]]; try discriminate. injection E as -> -> ->. destruct (IH xs eq_refl) as (n & m & e & -> & L & AR & I & O & F). exists (S n), (x :: y :: m), e.
    cbn in *. split; [auto|]. split; [lia|]. split; [auto 6|]. split; [auto|]. split; [auto|]. apply andb_true_iff. split; [|exact F]. replace (ar_out y) with (ar_out e) by congruence. apply tkey_refl.
Qed.
Lemma rens_back : forall xs, rens (map shape_of xs) -> renamed xs /\ exists n, length xs = n + n.
Proof.
  intros xs H. remember (map shape_of xs) as ls eqn:E. revert xs E. induction H as [|h a l P (A1 & A2) H IH]; intros xs E.
  - shapes. split; [exact I|]. now exists 0.
  - destruct xs as [|x [|y xs]]; try discriminate. injection E as -> -> ->. destruct (IH xs eq_refl) as (R & n & L). split; [|exists (S n); cbn; lia].
    cbn in *. destruct P as [(P1 & P2)|(P1 & P2)]; cbn in *; auto 6.
Qed.
Lemma binds_back : forall t ns l vs, (forall n, In n ns -> known_at c n) -> binds code g rep c t ns l vs -> Forall (from t) (map shape_of l) ->
  exists m ns1 vs1, bound g c t rep ns1 l vs1 /\ length ns1 = m + m /\ ((ns = ns1 /\ vs = vs1) \/ exists n v, ns = ns1 ++ [n] /\ vs = vs1 ++ [v] /\ makes code g c n (rep t) v /\ known_at c n).
Proof.
  intros t ns l vs KN H. induction H as [|n v M|n m a v ns l vs U M H IH]; intros F.
  - exists 0, [], []. split; [constructor|]. auto.
  - exists 0, [], []. split; [constructor|]. split; [auto|]. right. exists n, v. split; [auto|]. split; [auto|]. split; [auto|]. apply KN. now left.
  - cbn [map] in F. apply Forall_cons_iff in F. destruct F as (F1 & F). destruct IH as (q & ns1 & vs1 & B & L & D); [intros; apply KN; cbn; auto|auto|].
    exists (S q), (n :: m :: ns1), (v :: vs1). split; [constructor; auto; apply KN; cbn; auto|]. split; [cbn; lia|].
    destruct D as [(-> & ->)|(n' & v' & -> & -> & M' & K')]; [auto|right]. exists n', v'. auto.
Qed.
Lemma bwd : forall t o fT ns u x, (forall n, In n ns -> known_at c n) -> compiles o (map tg_str fT) t ns u x -> Y t (op_prog g rep types format inject t (length ns) o) fT ns (u, x).
Proof.
  intros t o fT ns u [oo op xs ws ty0 fd0] KN CC. apply unmake in CC. cbn [cd_opts cd_args cd_vars cd_ty cd_field] in CC. destruct CC as (w & W & E & U & S). injection E as ->.
  remember (map tg_str fT) as fs eqn:EF. remember (map shape_of xs) as ls eqn:EL. remember (Detail op ty0 fd0) as dd eqn:ED. destruct S.
  - pick_o H; plain U; shapes; subst; apply constrained_bwd; auto.
  - plain U; shapes; subst; apply constrained_bwd; auto.
  - pick_o H; plain U; shapes; subst; unfold flags in H0; cbn [map] in H0; cbn [op_prog]; flag H0; flag H0; try (flag H0); endflag H0; apply constrained_bwd; auto.
  - pick_o H; plain U; shapes; cbn [op_prog]; bw.
  - plain U; shapes; cbn [op_prog]; bw.
  - plain U; shapes; cbn [op_prog]; bw.
  - pick_o H; plain U; shapes; cbn [op_prog]; unfold same; bw.
  - pick_o H; plain U; shapes; cbn [op_prog]; unfold same; bw.
  - plain U; shapes; cbn [op_prog]. eapply tuple_bwd; eauto.
  - plain U; shapes; cbn [op_prog]. eapply tuple_bwd; eauto.
  - plain U; shapes; cbn [op_prog]; bw.
  - pick_o H; plain U; shapes; subst; unfold flags in H0; cbn [map] in H0; cbn [op_prog]; bw; flag H0; try endflag H0; bw.
  - plain U; shapes; cbn [op_prog]; unfold unary; bw.
  - plain U; shapes; cbn [op_prog]; bw.
  - plain U; shapes; cbn [op_prog]; bw.
  - plain U; shapes; cbn [op_prog]; bw. apply Y_flag_type. cbn. bw.
  - apply map_flag in EF. destruct EF as (ft & -> & ->). pick_o H0; plain U; shapes; cbn [op_prog]; bw; apply Y_flag_type; eexists; (split; [exact H|]); bw.
  - plain U; shapes; cbn [op_prog]; bw. match goal with |- context[tkey_eqb ?q KTabRow] => destruct (tkey_eqb q KTabRow) eqn:Z end; [apply tkey_eqb_eq in Z; congruence|]. bw.
  - pick_o H; plain U; shapes; subst; cbn [op_prog]; unfold agnostic; bw; rewrite (some_len _ _ U H0); (eapply args_bwd; [exact U|exact H1|]); bw.
  - plain U; shapes; subst. cbn [op_prog]. apply ifs_back in H. destruct H as (m & l & e & -> & L & AR & I & O & F). apply Forall2_app_inv_r in U. destruct U as (n1 & n2 & U1 & U2 & ->).
    shapes. pose proof (F2len _ _ _ _ _ U1) as L1. rewrite app_length. cbn [length]. rewrite L1, L. replace (m + m + 1) with (S (m + m)) by lia. rewrite even_odd, half_odd.
    apply (Y_arms _ G). exists n1, [n], l. split; [auto|]. split; [lia|]. split; [auto|]. split; [auto|]. cbn [app]. bw. rewrite F. subst. bw.
  - plain U; shapes; cbn [op_prog]; unfold unary; bw.
  - plain U; shapes; subst. cbn [op_prog]. bw. rewrite (some_len _ _ U H). bw. apply (Y_appends _ G). exists ns, [], xs. rewrite app_nil_r. split; [auto|]. split; [auto|]. split; [auto|]. split; [now rewrite Forall_map in H0|].
    rewrite !map_length in *. pose proof (F2len _ _ _ _ _ U) as L. rewrite firstn_all2, skipn_all2 by lia. rewrite L. cbn [app]. bw.
  - plain U; shapes; subst. cbn [op_prog]. bw. eapply any_args_bwd; eauto. bw.
  - plain U; shapes; subst. cbn [op_prog]. bw. destruct (length ns =? 0) eqn:Z.
    + apply Nat.eqb_eq in Z. pose proof (F2len _ _ _ _ _ U) as L. destruct ns; [|discriminate]. destruct xs; [|discriminate]. bw.
    + eapply colnames_bwd; eauto; [|bw]. intros N. apply map_nil in N. subst xs. inversion U; subst. discriminate.
  - pick_o H; plain U; shapes; subst; cbn [op_prog]; bw; (eapply colnames_bwd; [exact U|exact H0|exact H1|]); bw.
  - pick_o H; plain U; shapes; subst; unfold flags in H0; cbn [map] in H0; cbn [op_prog]; flag H0; flag H0; endflag H0; (eapply colnames_bwd; [exact U|exact H1|exact H2|]); bw.
  - (* filter --cols *) cbn [OpSpec.uses] in U. destruct U as (-> & U & UT); shapes; subst; unfold flags in H; cbn [map] in H; cbn [op_prog]; bw; flag H; endflag H; bw.
  - (* filter rows *) cbn [OpSpec.uses] in U. destruct U as (-> & U & UT); shapes; subst; cbn [op_prog]; bw. eapply named_false; [constructor|intros []|]. bw.
  - (* filter column *) cbn [OpSpec.uses] in U. destruct U as (-> & U & UT); shapes; subst; cbn [op_prog]; bw. destruct H0 as [E|(f & q & E & Q & E2)].
    + symmetry in E. apply eq_sym, map_nil in E. subst fT. eapply named_false; [constructor|intros []|]. bw. apply Y_flag_type. cbn. apply (Y_flagged _ G). eexists _, _, _. split; [reflexivity|]. split; [eassumption|].
      split; [eapply UT; reflexivity|]. split; [exact H2|]. bw.
    + symmetry in E. apply map_flag in E. destruct E as (ft & -> & ->). shapes. cbn [map] in H. eapply (named_false _ _ _ _ _ _ _ _ _ [tg_str ft]); [reflexivity| |].
      * intros [Z|[]]. apply H. unfold flags. cbn [map]. rewrite Z. reflexivity.
      * bw. apply Y_flag_type. exists q. split; [exact Q|]. apply (Y_flagged _ G). eexists _, _, _. split; [reflexivity|]. split; [eassumption|]. split; [exact E2|]. split; [exact H2|]. bw.
  - (* fold *) cbn [OpSpec.uses] in U. destruct U as (n & m & v & -> & -> & U & (q & sl & -> & D) & PL). shapes. cbn [op_prog]. bw.
    lazymatch goal with |- OpsBase.Y _ _ _ _ ?t (PNext (ok (fun b => PDecouple b (PSupplied b _ (ok (fun b => PConcrete b (ok ?K))))))) ?fl ?ns ?y =>
      change (Y t (PNext (ok (fun b => asks [DD; DS (Some KNil)] b K))) fl ns y) end.
    apply (Y_asks _ G). eexists n, [m], _. split; [reflexivity|]. split; [split; [eassumption|split; [|intros Z; destruct (Z (Some KNil)); cbn; auto]]; repeat constructor; [apply (PL _ _ eq_refl)|assumption]|].
    bw. apply Y_inject_next. exists m, [], q, sl. split; [reflexivity|]. split; [exact D|]. bw. all: subst; auto.
  - (* fold-while *) cbn [OpSpec.uses] in U. destruct U as (n & m & m2 & v & v2 & -> & -> & U & (q & sl & -> & D) & (q2 & sl2 & -> & D2)). shapes. cbn [op_prog]. bw.
    apply Y_inject_next. exists m, [m2], q, sl. split; [reflexivity|]. split; [exact D|]. bw. apply Y_inject_next. exists m2, [], q2, sl2. split; [reflexivity|]. split; [exact D2|]. bw. all: subst; auto.
  - (* by *) pick_o H; plain U; shapes; subst; cbn [op_prog]; bw; unfold cmp_cmd; unfold OpSpec.ready_in in H1; cbn [sh_out shape_of] in H1; rewrite H1; (replace (tkey_eqb (key_of TOrd) KOrd) with true by reflexivity); bw.
  - (* map --force *) cbn [OpSpec.uses] in U. destruct U as (n & m & v & -> & -> & U & (q & sl & -> & D) & PL & UT). shapes. cbn [op_prog]. bw.
    lazymatch goal with |- OpsBase.Y _ _ _ _ ?t (PNext (ok (fun b => PDecouple b (PSupplied b _ (ok (fun b => PReturns b _ (ok (fun b => PConcrete b (ok ?K))))))))) ?fl ?ns ?y =>
      change (Y t (PNext (ok (fun b => asks [DD; DS (Some KNil); DR (fun _ => KStr)] b K))) fl ns y) end.
    apply (Y_asks _ G). eexists n, [m], _. split; [reflexivity|]. split; [split; [eassumption|split; [|intros Z; destruct (Z (Some KNil)); cbn; auto]]; repeat constructor; [apply (PL _ _ eq_refl)|assumption|cbn; congruence]|].
    subst. unfold flags in H; cbn [map] in H. flag H. endflag H. apply Y_inject_next. exists m, [], q, sl. split; [reflexivity|]. split; [exact D|]. bw.
    apply (Y_flagged _ G). eexists _, _, _. split; [reflexivity|]. split; [eassumption|]. split; [eassumption|]. split; [exact I|]. bw. all: try (subst; rewrite H1; auto).
  - (* map *) cbn [OpSpec.uses] in U. destruct U as (n & m & v & -> & -> & U & (q & sl & -> & D) & PL & UT). shapes. cbn [op_prog]. bw.
    lazymatch goal with |- OpsBase.Y _ _ _ _ ?t (PNext (ok (fun b => PDecouple b (PSupplied b _ (ok (fun b => PReturns b _ (ok (fun b => PConcrete b (ok ?K))))))))) ?fl ?ns ?y =>
      change (Y t (PNext (ok (fun b => asks [DD; DS (Some KNil); DR (fun _ => KStr)] b K))) fl ns y) end.
    apply (Y_asks _ G). eexists n, [m], _. split; [reflexivity|]. split; [split; [eassumption|split; [|intros Z; destruct (Z (Some KNil)); cbn; auto]]; repeat constructor; [apply (PL _ _ eq_refl)|assumption|cbn; congruence]|].
    subst. destruct H0 as [E|(f & qt & E & Q & E2)].
    + apply map_nil in E. subst fT. eapply named_false; [constructor|intros []|]. apply Y_flag_type. cbn [map]. apply Y_inject_next. exists m, [], q, sl. split; [reflexivity|]. split; [exact D|]. bw.
      apply (Y_flagged _ G). eexists _, _, _. split; [reflexivity|]. split; [eassumption|]. split; [eapply UT; reflexivity|]. split; [exact I|]. bw.
    + symmetry in E. apply map_flag in E. destruct E as (ft & -> & ->). shapes. cbn [map] in H. eapply (named_false _ _ _ _ _ _ _ _ _ [tg_str ft]); [reflexivity| |].
      * intros [Z|[]]. apply H. unfold flags. cbn [map]. rewrite Z. reflexivity.
      * apply Y_flag_type. exists qt. split; [exact Q|]. apply Y_inject_next. exists m, [], q, sl. split; [reflexivity|]. split; [exact D|]. bw.
        apply (Y_flagged _ G). eexists _, _, _. split; [reflexivity|]. split; [eassumption|]. split; [exact E2|]. split; [exact I|]. bw.
  - (* ren *) plain U; shapes; subst. cbn [op_prog]. bw. apply rens_back in H. destruct H as (R & m & L). pose proof (F2len _ _ _ _ _ U) as L1. rewrite L1, L, half.
    apply (Y_renames _ G). exists ns, [], xs. rewrite app_nil_r. split; [auto|]. split; [lia|]. split; [auto|]. split; [auto|]. cbn [app]. bw.
  - (* ren-with *) cbn [OpSpec.uses] in U. destruct U as (-> & U & UT); shapes; subst; cbn [op_prog]; bw. destruct H as [E|(f & q & E & Q & E2)].
    + apply map_nil in E. subst fT. apply Y_flag_type. cbn [map]. apply (Y_flagged _ G). eexists _, _, _. split; [reflexivity|]. split; [eassumption|].
      split; [eapply UT; reflexivity|]. split; [exact H1|]. bw.
    + symmetry in E. apply map_flag in E. destruct E as (ft & -> & ->). shapes.
      apply Y_flag_type. exists q. split; [exact Q|]. apply (Y_flagged _ G). eexists _, _, _. split; [reflexivity|]. split; [eassumption|]. split; [exact E2|]. split; [exact H1|]. bw.
  - (* rev *) pick_o H; plain U; shapes; subst; unfold flags in H0; cbn [map] in H0; cbn [op_prog]; unfold by_cols; bw; flag H0; endflag H0; bw.
  - (* skip, take *) pick_o H; plain U; shapes; subst; cbn [op_prog]; unfold counted; bw.
  - (* nth *) plain U; shapes; subst; cbn [op_prog]; bw.
  - (* len *) pick_o H; plain U; shapes; subst; unfold flags in H0; cbn [map] in H0; cbn [op_prog]; unfold by_cols; bw; flag H0; endflag H0; bw.
  - (* Table *) plain U; shapes; subst; cbn [op_prog]; bw. eapply args_bwd; eauto. bw.
  - (* range *) plain U; shapes; subst; cbn [op_prog]; bw. rewrite tkey_refl. cbn [andb]. bw.
  - plain U; shapes; subst; cbn [op_prog]; bw. cbn [andb]. bw.
  - (* strings *) pick_o H; plain U; shapes; cbn [op_prog]; unfold unary; bw.
  - plain U; shapes; subst; cbn [op_prog]; bw.
  - pick_o H; plain U; shapes; cbn [op_prog]; unfold counted; bw.
  - plain U; shapes; cbn [op_prog]; unfold unary; bw.
  - plain U; shapes; cbn [op_prog]; unfold unary; bw.
  - plain U; shapes; cbn [op_prog]; bw.
  - plain U; shapes; cbn [op_prog]; bw. apply text_some in H0. rewrite H0. cbn [ok]. rewrite H1. bw.
  - plain U; shapes; cbn [op_prog]; bw.
  - (* \ *) plain U; shapes; cbn [op_prog]; bw.
  - (* let *) cbn [OpSpec.uses] in U. shapes; subst; cbn [op_prog]; bw. destruct (binds_back _ _ _ _ KN U H) as (m & ns1 & vs1 & B & L & [(-> & ->)|(n & v & -> & -> & M & KM)]).
    + rewrite L, half, even_even. apply (Y_lets _ G). exists ns1, [], xs, vs1. rewrite app_nil_r. split; [auto|]. split; [auto|]. split; [auto|]. cbn [app]. bw.
    + rewrite app_length, L. cbn [length]. replace (m + m + 1) with (S (m + m)) by lia. rewrite half_odd, even_odd. apply (Y_lets _ G). exists ns1, [n], xs, vs1. split; [auto|]. split; [auto|]. split; [auto|].
      cbn [app]. apply (Y_make _ G). exists n, [], v. split; [auto|]. split; [auto|]. split; [auto|]. bw.
  - (* get *) plain U; shapes; subst; cbn [op_prog]; bw.
  - apply map_flag in EF. destruct EF as (ft & -> & ->). plain U; shapes; subst; cbn [op_prog]; bw. apply Y_flag_type. eexists. split; [eassumption|]. bw.
  - plain U; shapes; subst; cbn [op_prog]; bw. apply Y_flag_type. cbn [map]. apply (Y_wants _ G); [exact HK|]. exists u. split; [now apply W|]. bw.
  - plain U; shapes; subst; cbn [op_prog]; bw. eapply accessor_bwd; eauto. bw.
  - (* . *) plain U; shapes; subst; cbn [op_prog]; bw. match goal with Z : ar_out _ = KTabRow |- _ => rewrite Z end.
    lazymatch goal with |- OpsBase.Y _ _ _ _ ?t (PNext (ok (fun b => PSupplied b _ (ok (fun b => PReturns b _ (ok (fun b => PConcrete b (ok ?K)))))))) ?fl ?ns ?y =>
        change (Y t (arg (Some KNil) KStr K) fl ns y) end.
    bw. apply (Y_wants _ G); [exact HK|]. exists u. split; [now apply W|]. bw.
  - plain U; shapes; subst; cbn [op_prog]; bw.
    lazymatch goal with |- OpsBase.Y _ _ _ _ ?t _ ?fl ?ns ?y =>
      assert (Z : Y t (any_arg (Some KNil) (fun f => accessor g rep (ar_out x0) f (fun i u => PEval (key_of u) (Code ODot [] [x0; f] [] None (Some i))))) fl ns y) by (bw; eapply accessor_bwd; eauto; bw) end.
    cbn [sh_out shape_of] in H1. destruct (ar_out x0); try congruence; exact Z.
  - (* rand *) plain U; shapes; subst; cbn [op_prog]; bw. rewrite map_length in H. pose proof (F2len _ _ _ _ _ U) as L. destruct (Nat.eqb_spec (length ns) 3); [lia|]. destruct (Nat.leb_spec (length ns) 3); [|lia].
    eapply args_bwd; eauto. bw.
  - plain U; shapes; subst; cbn [op_prog]; bw. rewrite map_length in H. pose proof (F2len _ _ _ _ _ U) as L. destruct (Nat.eqb_spec (length ns) 3); [|lia]. destruct (Nat.leb_spec (length ns) 3); [|lia].
    bw. eapply args_bwd; eauto. bw.
  - (* Tuple *) plain U; shapes; subst; cbn [op_prog]; bw. rewrite map_length in H. pose proof (F2len _ _ _ _ _ U) as L. destruct (Nat.ltb_spec (length ns) 2); [lia|]. eapply any_args_bwd; eauto. cbv zeta. rewrite map_map. bw.
  - (* constructors *) plain U; shapes; subst; cbn [op_prog]; bw. apply fields_fun in H. subst fs. apply (Y_inits _ G). exists ns, [], xs. rewrite app_nil_r. split; [auto|]. split; [auto|]. split; [|bw].
    clear - H0. remember (map shape_of xs) as ls eqn:E. revert xs E. induction H0 as [|f a fs l (A1 & A2) A IH]; intros [|x xs] E; try discriminate; constructor; injection E as -> ->; [split; auto|auto].
Qed.
End A.
