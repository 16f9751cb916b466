(** Programs of ogma's own intrinsics, calls and parameters: compiling them comes to an end. *)
From Coq Require Import String List NArith ZArith Bool Arith Lia Permutation.
From Verif Require Import Model.Base Model.Value Model.Ast Model.Registry Model.AstGraph Model.TyBuild Model.Compile Model.ArgApi Model.Ops Spec.AstGraphSpec Spec.TyBuildSpec Spec.RegistrySpec Spec.LocalsSpec
  Proofs.HaltProofs.
From Verif Require Model.TyGraph Model.Locals Spec.OpSpec Proofs.OpsTop.
From Verif Require Import Spec.CompileSpec Spec.ArgSpec Spec.ParamSpec Spec.HaltSpec Proofs.CompileProofs Proofs.CompileInv Proofs.CompileRuns Proofs.CallProofs Proofs.ParamInv Proofs.HaltProg Proofs.HaltOps Proofs.HaltRun.
Import ListNotations.

Section T.
Variables (s : defs) (e : expr) (root : tkey) (anon : list tkey) (g : graph) (tg : tg_t).
Hypothesis HS : start s e root anon = Ok (g, tg).
Hypothesis HL : has_literal_types (df_types s).
Hypothesis HD : distinct_params (df_impls s).
Hypothesis HP : OpSpec.plain_tuples g.
Variables (rep : tkey -> ty) (types : str -> option ty) (format : str -> bool) (inject : comp code ArgApi.binding cparam -> injected -> tkey -> tkey + cerr).
Hypothesis HR : forall t, key_of (rep t) = t.
Variables (order : Locals.lmap -> Locals.lmap) (shuffle : list nat -> list nat) (seeds : list (str * ty)).
Hypothesis HO : forall m, Permutation (order m) m.
Notation intr := (fun c cmd t => shown (run_intrinsic g c cmd t (ops_prog g rep types format inject c cmd t))).
Notation ca := (fun c d t => shown (call_args g c d t)).
Notation mp := (fun c d => shown (map_params g rep c d)).
Lemma top_stops : forall (c0 : comp code ArgApi.binding cparam) brk, fresh code _ _ g order tg seeds = Good c0 ->
  exists f, forall f', f <= f' -> compile g intr ca mp order shuffle f' c0 brk <> NoFuel /\ compile g intr ca mp order shuffle f' c0 brk = compile g intr ca mp order shuffle f c0 brk.
Proof.
  intros c0 brk F. destruct (start_init _ _ _ _ _ _ HS) as (cs0 & HI).
  pose proof (fresh_full code _ _ s e root anon g tg HS order seeds c0 F) as HN. pose proof (fresh_J code g rep order seeds tg c0 F) as J0.
  apply (fresh_inv code _ _ g tg intr ca mp) in F. destruct F as (I0 & _). destruct (edges_bounded (g_edges g)) as (k & K).
  destruct (compile_halts' code g rep order shuffle seeds s e root anon tg cs0 (ops_prog g rep types format inject) (k + length (TyGraph.nodes (fst (c_tg c0)))) HS HI HL HN HO HR HD) with (c := c0) (b := brk) as (f & W).
  - apply OpsTop.ops_fair.
  - intros hs c o cmd op f t r er T ST KI N RUN E. eapply intrinsic_modest; eauto.
  - intros x J. specialize (K x J). lia.
  - split; [unfold HaltBatch.inv; lia|]. split; auto.
  - exists f. intros f' L. rewrite (compile_more code _ _ g intr ca mp order shuffle f f'); auto.
Qed.
Lemma top_root_stops : exists f, forall f', f <= f' -> compile_root g intr ca mp order shuffle f' tg seeds <> NoFuel /\
  compile_root g intr ca mp order shuffle f' tg seeds = compile_root g intr ca mp order shuffle f tg seeds.
Proof.
  unfold compile_root. destruct (fresh code ArgApi.binding cparam g order tg seeds) as [c|er|w|] eqn:E; cbn [obind].
  - destruct (top_stops c 0 E) as (f & F). exists f. intros f' L. destruct (F f' L) as (F1 & F2). rewrite F2. split; [|reflexivity].
    rewrite F2 in F1. apply obind_fuel; [exact F1|]. intros x _. apply obind_fuel; [apply expect_fuel|discriminate].
  - exists 0. intros. split; [discriminate|reflexivity].
  - exists 0. intros. split; [discriminate|reflexivity].
  - exfalso. revert E. unfold fresh. apply obind_fuel; [apply sure_fuel|]. intros lg _. apply obind_fuel; [apply sure_fuel|]. intros lg2 _. discriminate.
Qed.
End T.
