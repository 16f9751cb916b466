(** The statements about the compile loop. *)
From Coq Require Import String List ZArith NArith Bool Arith Lia Permutation.
From Verif Require Import Model.Base Model.Value Model.Ast Model.Registry Model.AstGraph Model.TyBuild Model.Compile Spec.AstGraphSpec Spec.TyBuildSpec.
From Verif Require Import Spec.CompileSpec Proofs.CompileProofs Proofs.CompileInv Proofs.CompileRuns Proofs.CompileErr.
From Verif Require Model.TyGraph Model.Locals.
Import ListNotations.

Lemma root_runs : forall P A Q s e root anon g tg intr call_args map_params order shuffle fuel seeds c (stack : list (cstep P A)),
  start s e root anon = Ok (g, tg) -> has_literal_types (df_types s) ->
  compile_root (Q := Q) g intr call_args map_params order shuffle fuel tg seeds = Good (c, stack) ->
  has_stack c 0 stack /\ exists v, settles c 0 TyGraph.In_ root /\ settles c 0 TyGraph.Out_ v /\
    runs g (answered intr c) (supplied call_args map_params c) (children g 0) root v stack.
Proof. intros. eapply CompileRuns.root_runs; eauto. Qed.
Lemma exprs_runs : forall P A Q s e root anon g tg intr call_args map_params order shuffle fuel seeds brk (c0 c : comp P A Q),
  start s e root anon = Ok (g, tg) -> has_literal_types (df_types s) ->
  fresh P A Q g order tg seeds = Good c0 -> compile g intr call_args map_params order shuffle fuel c0 brk = Good c ->
  forall x stack, has_stack c x stack -> exists t v, settles c x TyGraph.In_ t /\ settles c x TyGraph.Out_ v /\
    runs g (answered intr c) (supplied call_args map_params c) (children g x) t v stack.
Proof.
  intros until c. intros HS HL F H x stack X. pose proof (fresh_full P A Q s e root anon g tg HS order seeds c0 F) as HN.
  apply (fresh_inv P A Q g tg intr call_args map_params) in F. destruct F as (I & _). eapply compile_ok in H; eauto. destruct H as (I1 & _).
  eapply exprs_run; eauto.
Qed.
Lemma compile_grows : forall P A Q s e root anon g tg intr call_args map_params order shuffle seeds f1 f2 b1 b2 (c0 c1 c2 : comp P A Q),
  start s e root anon = Ok (g, tg) -> has_literal_types (df_types s) ->
  fresh P A Q g order tg seeds = Good c0 -> compile g intr call_args map_params order shuffle f1 c0 b1 = Good c1 ->
  compile g intr call_args map_params order shuffle f2 c1 b2 = Good c2 -> grows c0 c1 /\ grows c1 c2.
Proof.
  intros until c2. intros HS HL F H1 H2. pose proof (fresh_full P A Q s e root anon g tg HS order seeds c0 F) as HN.
  apply (fresh_inv P A Q g tg intr call_args map_params) in F. destruct F as (I & _). eapply compile_ok in H1; eauto. destruct H1 as (I1 & G1).
  eapply compile_ok in H2; eauto. destruct H2 as (_ & G2). auto.
Qed.
Lemma compile_hist : forall P A Q s e root anon g tg intr call_args map_params order shuffle fuel seeds brk (c0 c : comp P A Q),
  start s e root anon = Ok (g, tg) -> has_literal_types (df_types s) ->
  fresh P A Q g order tg seeds = Good c0 -> compile g intr call_args map_params order shuffle fuel c0 brk = Good c ->
  exists xs, Forall (compiler_step g) xs /\ TyGraph.compile_history tkey_eqb (tg, []) xs = (c_tg c, Ok tt).
Proof.
  intros until c. intros HS HL F H. pose proof (fresh_full P A Q s e root anon g tg HS order seeds c0 F) as HN.
  apply (fresh_inv P A Q g tg intr call_args map_params) in F. destruct F as (I & _). eapply compile_ok in H; eauto. destruct H as (I1 & _). exact (proj1 I1).
Qed.
Lemma compile_breaks : forall P A Q g intr call_args map_params order shuffle fuel brk (c0 c : comp P A Q),
  compile g intr call_args map_params order shuffle fuel c0 brk = Good c ->
  (exists stack, has_stack c brk stack) \/ (exists x, has_step c brk x).
Proof.
  intros P A Q g intr call_args map_params order shuffle. induction fuel as [|fuel IH]; intros brk c0 c H; cbn [compile] in H; [discriminate|].
  destruct (has brk (c_exprs c0) || has brk (c_ops c0)) eqn:B.
  - injection H as <-. unfold has, has_stack, has_step in *. destruct (alookup Nat.eqb brk (c_exprs c0)); [left; eauto|]. destruct (alookup Nat.eqb brk (c_ops c0)); [right; eauto|discriminate].
  - apply obind_good in H. destruct H as (c1 & _ & H). eauto.
Qed.
Lemma root_more : forall P A Q g tg intr call_args map_params order shuffle f f' seeds, f <= f' ->
  compile_root (P := P) (A := A) (Q := Q) g intr call_args map_params order shuffle f tg seeds <> NoFuel ->
  compile_root g intr call_args map_params order shuffle f' tg seeds = compile_root g intr call_args map_params order shuffle f tg seeds.
Proof. intros. now apply CompileRuns.root_more. Qed.
Lemma panic_iff : forall P A Q s e root anon g tg intr call_args map_params order shuffle fuel seeds brk (c0 c c1 : comp P A Q),
  start s e root anon = Ok (g, tg) -> has_literal_types (df_types s) ->
  fresh P A Q g order tg seeds = Good c0 -> compile g intr call_args map_params order shuffle fuel c0 brk = Good c -> resolve c = Good c1 ->
  (compile_blocks g intr call_args order c1 = Crash NoError <->
   forall n op t, node g n = Some (NOp op) -> settles c1 n TyGraph.In_ t -> exists x, has_step c1 n x).
Proof.
  intros until c1. intros HS HL F H R. pose proof (fresh_full P A Q s e root anon g tg HS order seeds c0 F) as HN.
  apply (fresh_inv P A Q g tg intr call_args map_params) in F. destruct F as (I & _). eapply compile_ok in H; eauto. destruct H as (I1 & _).
  assert (C : calm P A Q g c1) by (eapply resolve_calm; [exact HS|exact HL|exact (proj1 I1)|exact R]). apply (resolve_moves P A Q g) in R. destruct R as (M & _).
  assert (H1 : hist P A Q g tg c1) by (eapply hist_moves; [exact (proj1 I1)|exact M]).
  assert (MP : mapped map_params c1) by (eapply inv_moves in I1; [exact (proj2 (proj2 (proj2 I1)))|exact M]).
  rewrite (no_error_iff P A Q s e root anon g tg HS HL intr call_args map_params order HN c1 H1 C MP). split.
  - intros E n op t N S. unfold has_step. destruct (alookup Nat.eqb n (c_ops c1)) as [x|] eqn:L; [eauto|]. exfalso.
    assert (J : In n (ready g c1)); [|rewrite E in J; destruct J]. apply filter_In. split; [apply in_indices; exists (NOp op); auto|].
    unfold has. rewrite L. cbn. eapply settled_has; eauto.
  - intros Z. destruct (ready g c1) as [|n ns] eqn:E; [reflexivity|]. exfalso. assert (J : In n (ready g c1)) by (rewrite E; now left).
    apply ready_in in J. destruct J as ((op & N) & U & T). assert (S : exists t, settles c1 n TyGraph.In_ t).
    { pose proof (proj2 C n TyGraph.In_) as W. unfold has_ty_at in T. unfold ty_at in W. destruct (kn c1 n TyGraph.In_) as [k|]; [|discriminate].
      destruct k as [|a|a|[|a [|b' ts]]]; try discriminate; exists a; now apply W. }
    destruct S as (t & S). destruct (Z n op t N S) as (x & X). unfold has in U. unfold has_step in X. rewrite X in U. discriminate.
Qed.
Lemma root_no_panic : forall P A Q s e root anon g tg intr call_args map_params order shuffle fuel seeds,
  start s e root anon = Ok (g, tg) -> has_literal_types (df_types s) ->
  (forall c n t r, intr c n t = Some r -> r_infer r = false) -> (forall l, Permutation l (shuffle l)) ->
  compile_root (P := P) (A := A) (Q := Q) g intr call_args map_params order shuffle fuel tg seeds <> Crash NoError.
Proof.
  intros until seeds. intros HS HL HQ SH.
  destruct (fresh P A Q g order tg seeds) as [c0|er|w|] eqn:F.
  - pose proof (fresh_full P A Q s e root anon g tg HS order seeds c0 F) as HN. eapply root_sound; eauto. intros l x J. eapply Permutation_in; [|exact J]. apply Permutation_sym, SH.
  - unfold compile_root. rewrite F. discriminate.
  - unfold compile_root. rewrite F. cbn. intros Z. injection Z as ->. revert F. unfold fresh. apply obind_tame; [apply sure_tame|]. intros lg _. apply obind_tame; [apply sure_tame|]. intros lg2 _. apply good_tame.
  - unfold compile_root. rewrite F. discriminate.
Qed.
