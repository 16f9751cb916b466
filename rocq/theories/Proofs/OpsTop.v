(** The intrinsics of programs. *)
From Coq Require Import String List NArith Bool Arith Lia Permutation.
From Verif Require Import Model.Base Model.Value Model.Ast Model.Registry Model.AstGraph Model.TyBuild Model.Compile Model.Tuple Model.Get Model.ArgApi Model.Ops Spec.AstGraphSpec Spec.TyBuildSpec Spec.LocalsSpec Spec.CompileSpec Spec.ArgSpec Spec.ParamSpec Spec.OpSpec
  Proofs.TyBuildBase Proofs.TyBuildNodes Proofs.CompileProofs Proofs.CompileInv Proofs.ArgProofs Proofs.CallProofs Proofs.ParamInv Proofs.OpsBase Proofs.OpsArgs Proofs.OpsVars Proofs.OpsProofs.
From Verif Require Model.TyGraph Model.Locals Proofs.LocalsGraphProofs Proofs.AstTypedProofs Proofs.AstExpandProofs.
Import ListNotations.

(** ** Intrinsics pass on what they are given *)
Section F.
Variable g : graph.
Notation fair := (ParamSpec.fair (P := code) g).
Lemma ok_fair : forall X (k : X -> prog) r, (forall x, r = inl x -> fair (k x)) -> fair (ok k r).
Proof. intros X k [x|e] H; [now apply H|constructor]. Qed.
Lemma next_fair : forall k, (forall b, written g (b_node b) -> fair (k b)) -> fair (PNext (ok k)).
Proof. intros k H. constructor. intros r W. apply ok_fair. intros b ->. now apply H, W. Qed.
Lemma supplied_fair : forall b t k, written g (b_node b) -> (forall b, written g (b_node b) -> fair (k b)) -> fair (PSupplied b t (ok k)).
Proof. intros b t k Wb H. constructor; [auto|]. intros r W. apply ok_fair. intros b' ->. now apply H, W. Qed.
Lemma returns_fair : forall b t k, written g (b_node b) -> (forall b, written g (b_node b) -> fair (k b)) -> fair (PReturns b t (ok k)).
Proof. intros b t k Wb H. constructor; [auto|]. intros r W. apply ok_fair. intros b' ->. now apply H, W. Qed.
Lemma concrete_fair : forall b k, written g (b_node b) -> (forall a, fair (k a)) -> fair (PConcrete b (ok k)).
Proof. intros b k Wb H. constructor; [auto|]. intros r. apply ok_fair. auto. Qed.
Lemma create_fair : forall a t k, written g a -> (forall v, fair (k v)) -> fair (PCreate a t (ok k)).
Proof. intros a t k W H. constructor; [auto|]. intros r. apply ok_fair. auto. Qed.
Lemma inject_fair : forall x t k, (forall v, fair (k v)) -> fair (inject_next x t k).
Proof. intros x t k H. unfold inject_next. constructor. intros [n|] m W; [|constructor]. constructor; [apply W; auto|]. intros r. apply ok_fair. auto. Qed.
Lemma arg_fair : forall i o k, (forall a, fair (k a)) -> fair (arg i o k).
Proof. intros i o k H. unfold arg. apply next_fair. intros b W. apply supplied_fair; [auto|]. intros b1 W1. apply returns_fair; [auto|]. intros b2 W2. apply concrete_fair; auto. Qed.
Lemma any_arg_fair : forall i k, (forall a, fair (k a)) -> fair (any_arg i k).
Proof. intros i k H. unfold any_arg. apply next_fair. intros b W. apply supplied_fair; [auto|]. intros b1 W1. apply concrete_fair; auto. Qed.
Lemma args_fair : forall n i o acc k, (forall l, fair (k l)) -> fair (args n i o acc k).
Proof. induction n as [|n IH]; intros; cbn [args]; [auto|]. apply arg_fair. auto. Qed.
Lemma any_args_fair : forall n i acc k, (forall l, fair (k l)) -> fair (any_args n i acc k).
Proof. induction n as [|n IH]; intros; cbn [any_args]; [auto|]. apply any_arg_fair. auto. Qed.
Lemma arms_fair : forall n acc k, (forall l, fair (k l)) -> fair (arms n acc k).
Proof. induction n as [|n IH]; intros; cbn [arms]; [auto|]. apply arg_fair. intros. apply any_arg_fair. auto. Qed.
Lemma appends_fair : forall n acc cols k, (forall l m, fair (k l m)) -> fair (appends n acc cols k).
Proof. induction n as [|n IH]; intros; cbn [appends]; [auto|]. apply any_arg_fair. intros. constructor. auto. Qed.
Lemma inits_fair : forall fs acc k, (forall l, fair (k l)) -> fair (inits fs acc k).
Proof. induction fs as [|n IH]; intros; cbn [inits]; [auto|]. apply arg_fair. auto. Qed.
Lemma lets_fair : forall rep n acc vs k, (forall l m, fair (k l m)) -> fair (lets rep n acc vs k).
Proof. induction n as [|n IH]; intros; cbn [lets]; [auto|]. apply any_arg_fair. intros. apply next_fair. intros b W. apply create_fair; auto. Qed.
Lemma renames_fair : forall n acc k, (forall l, fair (k l)) -> fair (renames n acc k).
Proof.
  induction n as [|n IH]; intros acc k H; cbn [renames]; [auto|]. apply next_fair. intros b W. apply supplied_fair; [auto|]. intros b1 W1. apply returns_fair; [auto|]. intros b2 W2. apply concrete_fair; [auto|].
  intros h. apply arg_fair. auto.
Qed.
Lemma flag_type_fair : forall types k, (forall t, fair (k t)) -> fair (flag_type types k).
Proof. intros types k H. constructor. intros [f|]; [|auto]. destruct (type_flag types (tg_str f)); [auto|constructor]. Qed.
Lemma flagged_fair : forall t o k, (forall a, fair (k a)) -> fair (flagged_arg t o k).
Proof.
  intros t o k H. unfold flagged_arg. apply next_fair. intros b W.
  assert (Z : forall b, written g (b_node b) -> fair (match o with Some o => PReturns b o (ok (fun b => PConcrete b (ok k))) | None => PConcrete b (ok k) end)).
  { intros b1 W1. destruct o; [apply returns_fair; [auto|]; intros b2 W2|]; now apply concrete_fair. }
  destruct t; [apply supplied_fair; auto|auto].
Qed.
Lemma accessor_fair : forall rep t a k, (forall i u, fair (k i u)) -> fair (accessor g rep t a k).
Proof.
  intros rep t a k H. unfold accessor. destruct (rep t) as [| | | | | |[n [vs|fs]]]; try constructor. apply ok_fair. intros x _. destruct (field_index x fs) as [[i u]|]; [auto|constructor].
Qed.
Ltac go := repeat first
  [ assumption | apply arg_fair; intros | apply any_arg_fair; intros | apply args_fair; intros | apply any_args_fair; intros | apply arms_fair; intros | apply appends_fair; intros | apply inits_fair; intros
  | apply lets_fair; intros | apply renames_fair; intros | apply flag_type_fair; intros | apply flagged_fair; intros | apply accessor_fair; intros | apply inject_fair; intros
  | apply next_fair; intros | apply supplied_fair; [assumption|intros] | apply returns_fair; [assumption|intros] | apply concrete_fair; [assumption|intros] | apply create_fair; [assumption|intros]
  | match goal with |- ParamSpec.fair _ (if ?b then _ else _) => destruct b | |- ParamSpec.fair _ (match ?b with Some _ => _ | None => _ end) => destruct b | |- ParamSpec.fair _ (match ?b with inl _ => _ | inr _ => _ end) => destruct b
    | |- ParamSpec.fair _ (match ?b with KNil => _ | _ => _ end) => destruct b | |- ParamSpec.fair _ (match ?b with TNil => _ | _ => _ end) => destruct b end
  | apply ok_fair; intros | progress cbv zeta | constructor; intros ].
Lemma op_fair : forall rep types format inject t len o, fair (op_prog g rep types format inject t len o).
Proof.
  intros rep types format inject t len o. destruct o; cbn [op_prog];
    unfold constrained, agnostic, same, counted, unary, by_cols, tuple_op, colnames, cmp_cmd, assert_input, named_flag; go.
Qed.
Lemma ops_fair : forall rep types format inject c cmd t, fair (ops_prog g rep types format inject c cmd t).
Proof.
  intros. unfold ops_prog. destruct (node g cmd) as [[]|]; try (constructor; fail). destruct (op_of f); [apply op_fair|constructor].
Qed.
End F.

(** ** In graphs of programs *)
Section T.
Variables (s : defs) (e : expr) (root : tkey) (anon : list tkey) (g : graph) (tg : TyGraph.tgraph tkey).
Hypothesis HS : start s e root anon = Ok (g, tg).
Lemma good_g : LocalsGraphProofs.good g.
Proof.
  pose proof HS as H. unfold start in H. destruct (init s e) as [[g0 cs]| |] eqn:E0; cbn [rbind fst snd] in H; try discriminate.
  destruct (init_tg g0 (full (df_types s)) root) as [t0| |]; cbn [rbind] in H; try discriminate.
  destruct (TyGraph.apply_chgs tkey_eqb t0 _ false) as [t1 [b1|?|]]; try discriminate. injection H as <- _. now apply LocalsGraphProofs.init_good in E0.
Qed.
Lemma flags_made : forall b, exists fl, flag_texts g b fl.
Proof.
  intros b. unfold flag_texts. assert (Z : forall l, (forall n, In n l -> exists t, node g n = Some (NFlag t)) -> exists fl, Forall2 (fun n f => exists t, node g n = Some (NFlag t) /\ f = tg_str t) l fl).
  { induction l as [|n l IH]; intros H; [exists []; constructor|]. destruct (H n) as (t & N); [now left|]. destruct IH as (fl & F); [intros; apply H; now right|]. exists (tg_str t :: fl). constructor; eauto. }
  apply Z. intros n J. assert (J' : In n (flags_below g b)) by (rewrite <- (firstn_skipn 256 (flags_below g b)); apply in_or_app; now left).
  unfold flags_below in J'. apply filter_In in J'. destruct J' as (_ & J'). unfold is_flag in J'. destruct (node g n) as [[]|]; try discriminate. eauto.
Qed.
Lemma flags_get : forall b key cmd fl, In (key, cmd) (keyed g b) -> flag_texts g b fl -> exists fT, get_flags g cmd = Ok fT /\ fl = map tg_str fT.
Proof.
  intros b key cmd fl K F. pose proof (made_g _ _ _ _ _ _ HS) as M. apply AstExpandProofs.keyed_in in K. destruct (get_terms_all g b cmd key (m_inv _ _ M) K) as (_ & T).
  unfold get_flags. rewrite T. cbn [rbind]. unfold flag_texts in F. remember (firstn 256 (flags_below g b)) as l eqn:L. clear L T.
  induction F as [|n f l fl N F IH]; [exists []; auto|]. destruct N as (t & N & ->). destruct IH as (fT & E & ->). exists (t :: fT). cbn. rewrite N. cbn. rewrite E. auto.
Qed.
Variables (rep : tkey -> ty) (types : str -> option ty) (format : str -> bool) (inject : comp code ArgApi.binding cparam -> injected -> tkey -> tkey + cerr).
Notation comp := (comp code ArgApi.binding cparam).
Lemma run_iff : forall (c : comp) cmd t b key op f o fl u x, node g cmd = Some (NIntrinsic op f) -> op_of f = Some o -> In (key, cmd) (keyed g b) -> flag_texts g b fl ->
  ((exists r, run_intrinsic g c cmd t (ops_prog g rep types format inject c cmd t) = Good r /\ r_res r = inl (u, x)) -> compiles g rep types format (inject c) c b o fl t (firstn 256 (args_below g b)) u x) /\
  ((forall n, In n (args_below g b) -> kn c n TyGraph.In_ <> None /\ kn c n TyGraph.Out_ <> None) ->
   compiles g rep types format (inject c) c b o fl t (firstn 256 (args_below g b)) u x -> exists r, run_intrinsic g c cmd t (ops_prog g rep types format inject c cmd t) = Good r /\ r_res r = inl (u, x)).
Proof.
  intros c cmd t b key op f o fl u x N O K F. pose proof (made_g _ _ _ _ _ _ HS) as M. destruct (flags_get _ _ _ _ K F) as (fT & GF & ->).
  pose proof (get_args_all _ _ M _ _ _ K) as GA. destruct (cmd_parent_ok _ _ M cmd _ N I) as (b' & tb & k' & Nb & CP & K' & _ & U). destruct (U _ _ K) as (-> & ->).
  assert (HK : exists y, node g b' = Some (NOp y)) by eauto.
  unfold run_intrinsic, ops_prog. rewrite CP, GF, GA, N, O. cbn [sure obind]. split.
  - intros H. apply (fwd g good_g rep types format (inject c) c b' HK). exact H.
  - intros KN H. apply (bwd g good_g rep types format (inject c) c b' HK) in H; [exact H|]. intros n J. apply KN. rewrite <- (firstn_skipn 256 (args_below g b')). apply in_or_app. now left.
Qed.
Scheme runs_min2 := Minimality for runs Sort Prop with step_min2 := Minimality for step_of Sort Prop.
Lemma runs_answers : forall P A (binds : nat -> tkey -> list A -> Prop) (a1 a2 : nat -> tkey -> tkey -> P -> Prop), (forall cmd op f t u x, node g cmd = Some (NIntrinsic op f) -> a1 cmd t u x -> a2 cmd t u x) ->
  forall os t v ss, runs g a1 binds os t v ss -> runs g a2 binds os t v ss.
Proof.
  intros P A binds a1 a2 W. apply (runs_min2 P A g a1 binds (fun os t v ss => runs g a2 binds os t v ss) (fun o t u s => step_of g a2 binds o t u s)); intros; econstructor; eauto.
Qed.
Lemma answered_takes : forall (c : comp) cmd op f t u x, node g cmd = Some (NIntrinsic op f) ->
  answered (fun c cmd t => shown (run_intrinsic g c cmd t (ops_prog g rep types format inject c cmd t))) c cmd t u x -> takes g rep types format inject c cmd t u x.
Proof.
  intros c cmd op f t u x N (c0 & r & Gr & Ez & H & R). pose proof (made_g _ _ _ _ _ _ HS) as M.
  destruct (cmd_parent_ok _ _ M cmd _ N I) as (b & tb & k & Nb & CP & K & _). destruct (flags_made b) as (fl & F). destruct (op_of f) as [o|] eqn:E.
  2: { exfalso. destruct (flags_get _ _ _ _ K F) as (fT & GF & _). pose proof (get_args_all _ _ M _ _ _ K) as GA. unfold run_intrinsic, ops_prog in H. rewrite CP, GF, GA, N, E in H. cbn in H. injection H as <-. discriminate. } exists c0, b, k, op, f, o, fl. repeat (split; [assumption|]).
  apply (run_iff c0 cmd t b k op f o fl u x N E K F). exists r. split; [|exact R]. destruct (run_intrinsic g c0 cmd t _) as [r'| | |]; try discriminate. cbn in H. congruence.
Qed.

Lemma ops_exprs : has_literal_types (df_types s) -> distinct_params (df_impls s) -> (forall t, key_of (rep t) = t) ->
  forall order shuffle seeds, (forall m, Permutation (order m) m) -> forall fuel brk (c0 c : comp), fresh code _ _ g order tg seeds = Good c0 ->
  compile g (fun c cmd t => shown (run_intrinsic g c cmd t (ops_prog g rep types format inject c cmd t))) (fun c d t => shown (call_args g c d t)) (fun c d => shown (map_params g rep c d)) order shuffle fuel c0 brk = Good c ->
  forall x stack, has_stack c x stack -> exists t v, settles c x TyGraph.In_ t /\ settles c x TyGraph.Out_ v /\ runs g (takes g rep types format inject c) (calls g c) (children g x) t v stack.
Proof.
  intros HL HD HR order shuffle seeds HO fuel brk c0 c F H x stack X.
  destruct (top_exprs code s e root anon g tg rep (ops_prog g rep types format inject) order shuffle seeds HS HL HD HR HO (ops_fair g rep types format inject) fuel brk c0 c F H x stack X) as (t & v & S1 & S2 & R).
  exists t, v. split; [auto|]. split; [auto|]. eapply runs_answers; [|exact R]. intros cmd op f t' u y N A. eapply answered_takes; eauto.
Qed.
Lemma ops_root : has_literal_types (df_types s) -> distinct_params (df_impls s) -> (forall t, key_of (rep t) = t) ->
  forall order shuffle seeds, (forall m, Permutation (order m) m) -> forall fuel (c : comp) stack,
  compile_root g (fun c cmd t => shown (run_intrinsic g c cmd t (ops_prog g rep types format inject c cmd t))) (fun c d t => shown (call_args g c d t)) (fun c d => shown (map_params g rep c d)) order shuffle fuel tg seeds = Good (c, stack) ->
  exists v, settles c 0 TyGraph.Out_ v /\ runs g (takes g rep types format inject c) (calls g c) (children g 0) root v stack.
Proof.
  intros HL HD HR order shuffle seeds HO fuel c stack H.
  destruct (top_root code s e root anon g tg rep (ops_prog g rep types format inject) order shuffle seeds HS HL HD HR HO (ops_fair g rep types format inject) fuel c stack H) as (v & S2 & R).
  exists v. split; [auto|]. eapply runs_answers; [|exact R]. intros cmd op f t' u y N A. eapply answered_takes; eauto.
Qed.
End T.

(** ** The tables of names *)
Lemma keys_ok : forall rep named format ready want x k o, In (x, Some k, o) intrinsics -> o <> OPick ->
  forall fl t l u d, sig rep named format ready want o fl t l u d -> t = key_of k.
Proof.
  intros rep named format ready want x k o J NP fl t l u d S. cbn in J.
  repeat (destruct J as [J|J]; [first [discriminate|injection J as <- <- <-; first [congruence|inversion S; subst; cbn in *; try reflexivity; try discriminate; intuition (try discriminate; congruence)]]|]). destruct J.
Qed.
Lemma names_once : NoDup (map fst intrinsics).
Proof.
  apply (NoDup_map_inv (fun x : str * option ty => (fst x ++ [0%N] ++ match snd x with Some t => tyname t | None => [] end)%list)).
  assert (E : nodup (list_eq_dec N.eq_dec) (map (fun x : str * option ty => (fst x ++ [0%N] ++ match snd x with Some t => tyname t | None => [] end)%list) (map fst intrinsics)) =
    map (fun x : str * option ty => (fst x ++ [0%N] ++ match snd x with Some t => tyname t | None => [] end)%list) (map fst intrinsics)) by (vm_compute; reflexivity).
  rewrite <- E. apply NoDup_nodup.
Qed.
