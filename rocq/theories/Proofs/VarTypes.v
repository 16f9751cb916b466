(** What the compiler gives variables that are not settled. *)
From Coq Require Import String List ZArith NArith Bool Arith Lia.
From Verif Require Import Model.Base Model.Value Model.Ast Model.Registry Model.AstGraph Model.TyBuild Model.Compile Model.ArgApi Spec.AstGraphSpec Spec.TyBuildSpec
  Spec.CompileSpec Spec.ArgSpec Proofs.CompileProofs Proofs.CompileInv.
From Verif Require Model.TyGraph Model.Locals.
Import ListNotations.

Lemma omapM_has : forall A B (f : A -> out B) l r, omapM f l = Good r -> forall a, In a l -> exists b, In b r /\ f a = Good b.
Proof.
  induction l as [|x l IH]; intros r H a I; cbn [omapM] in H; [destruct I|].
  apply obind_good in H. destruct H as (y & Y & H). apply obind_good in H. destruct H as (ys & Ys & H). injection H as <-.
  destruct I as [<-|I]; [exists y; split; [now left|auto]|]. destruct (IH _ Ys _ I) as (b & Ib & E). exists b. split; [now right|auto].
Qed.

Lemma at_slot_edges : forall g s f, TyGraph.edges (fst (@TyGraph.at_slot tkey g s f)) = TyGraph.edges g.
Proof. intros g s f. unfold TyGraph.at_slot. destruct (TyGraph.kn_at g s) as [k|]; [|reflexivity]. now destruct (f k) as [[c k']|e|]. Qed.
Lemma edges_kept : forall g x e, In e (TyGraph.edges g) -> In e (TyGraph.edges (fst (TyGraph.apply_chg tkey_eqb g x))).
Proof.
  intros g x e I. destruct x; cbn [TyGraph.apply_chg]; try (now rewrite at_slot_edges).
  - destruct (TyGraph.kn_at g _) as [k|]; [|exact I]. destruct (TyGraph.kn_ty k); [exact I|]. now rewrite at_slot_edges.
  - destruct (TyGraph.has_edge g src dst f); [exact I|]. destruct (_ && _); [|exact I]. cbn. apply in_or_app. now left.
  - exact I.
Qed.
Lemma edge_added : forall g a b f g' r, TyGraph.apply_chg tkey_eqb g (TyGraph.AddEdge a b f) = (g', Ok r) -> In (TyGraph.Build_edge a b f) (TyGraph.edges g').
Proof.
  intros g a b f g' r H. cbn [TyGraph.apply_chg] in H. destruct (TyGraph.has_edge g a b f) eqn:E.
  - injection H as <- <-. unfold TyGraph.has_edge in E. apply existsb_exists in E. destruct E as ([x y z] & I & E). cbn in E.
    apply andb_prop in E. destruct E as (E & E3). apply andb_prop in E. destruct E as (E1 & E2). apply Nat.eqb_eq in E1, E2.
    assert (z = f) by (destruct z, f; try discriminate E3; reflexivity). now subst.
  - destruct (_ && _); [|discriminate]. injection H as <- <-. cbn. apply in_or_app. right. now left.
Qed.

Section Vars.
Variables (P : Type) (g : graph) (order : Locals.lmap -> Locals.lmap).
Notation comp := (comp P binding cparam).

Lemma all_edges : forall cs (c c' : comp) acc b e, apply_all order c cs acc = Good (c', b) ->
  In e (TyGraph.edges (fst (c_tg c))) \/ In (Tg (TyGraph.AddEdge (TyGraph.e_from e) (TyGraph.e_to e) (TyGraph.e_flow e))) cs -> In e (TyGraph.edges (fst (c_tg c'))).
Proof.
  induction cs as [|x cs IH]; intros c c' acc b e H I; cbn [apply_all] in H.
  - injection H as <- _. destruct I as [I|[]]. exact I.
  - destruct x as [x|x].
    + destruct (TyGraph.apply_chg tkey_eqb (fst (c_tg c)) x) as [tg [b1|er|]] eqn:E; try discriminate. apply (IH _ _ _ _ e) in H; [exact H|]. cbn.
      destruct I as [I|[I|I]].
      * left. pose proof (edges_kept _ x _ I) as K. now rewrite E in K.
      * injection I as ->. left. apply edge_added in E. now destruct e.
      * now right.
    + destruct (Locals.apply_chg order (c_lg c) x) as [[b1 lg]|er|] eqn:E; try discriminate. apply (IH _ _ _ _ e) in H; [exact H|]. cbn.
      destruct I as [I|[I|I]]; [now left|discriminate|now right].
Qed.

Lemma assigned : forall (c c' : comp) b n x l ts, assign_variable_types g order c = Good (c', b) -> node g n = Some (NVar x) ->
  kn c n TyGraph.Out_ = Some (TyGraph.Inferred ts) -> 1 < length ts -> finds c n x l ->
  match l with
  | Locals.EVar t _ => settles c' n TyGraph.Out_ (key_of t)
  | Locals.EPtr to => In (TyGraph.Build_edge to n TyGraph.II) (TyGraph.edges (fst (c_tg c'))) /\ In (TyGraph.Build_edge to n TyGraph.OO) (TyGraph.edges (fst (c_tg c')))
  end.
Proof.
  intros c c' b n x l ts H N K L F. unfold assign_variable_types in H. apply obind_good in H. destruct H as (cs & E & H).
  assert (J : In n (seq 0 (length (g_nodes g)))).
  { apply in_seq. split; [lia|]. cbn. apply nth_error_Some. unfold node in N. now rewrite N. }
  destruct (omapM_has _ _ _ _ _ E _ J) as (cn & I & V). unfold var_chgs in V. rewrite N in V.
  assert (M : multiple_at c n TyGraph.Out_ = true) by (unfold multiple_at; rewrite K; cbn [TyGraph.is_multiple]; now apply Nat.ltb_lt). rewrite M in V.
  assert (G : Locals.get_opt (c_lg c) n (tg_str x) = Ok (true, Some l)).
  { unfold finds, Locals.get in F. unfold Locals.get_opt. destruct (Locals.sealed (c_lg c) n) as [[]|er|]; try discriminate. cbn in *.
    destruct (Locals.get_ (c_lg c) n (tg_str x)) as [[y|]|er|]; try discriminate. cbn in *. now injection F as ->. }
  rewrite G in V. cbn in V. injection V as <-. destruct l as [t k|to].
  - refine (apply_all_claims P _ _ g order (concat cs) c false c' b n (key_of t) _ H _ _).
    + apply Forall_forall. intros y Y. apply in_concat in Y. destruct Y as (ys & Y1 & Y2). destruct (omapM_in _ _ _ _ _ E _ Y1) as (m & _ & W).
      apply var_chgs_ok in W. rewrite Forall_forall in W. auto.
    + apply in_concat. eexists. split; [exact I|]. now left.
    + now rewrite K.
  - split; refine (all_edges _ _ _ _ _ _ H (or_intror _)); apply in_concat; eexists; (split; [exact I|]); cbn; auto.
Qed.
End Vars.
