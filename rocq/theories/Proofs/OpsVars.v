(** What it takes for the variables and flags of a block to be accepted. *)
From Coq Require Import String List NArith Bool Arith Lia Permutation.
From Verif Require Import Model.Base Model.Value Model.Ast Model.Registry Model.AstGraph Model.TyBuild Model.Compile Model.Tuple Model.ArgApi Model.Ops Spec.AstGraphSpec Spec.TyBuildSpec Spec.LocalsSpec Spec.CompileSpec Spec.ArgSpec Spec.OpSpec
  Proofs.TyBuildBase Proofs.TyBuildNodes Proofs.CompileProofs Proofs.CompileInv Proofs.ArgProofs Proofs.CallProofs Proofs.OpsBase Proofs.OpsArgs.
From Verif Require Model.TyGraph Model.Locals Proofs.LocalsGraphProofs Proofs.AstTypedProofs.
Import ListNotations.

Section A.
Variable g : graph.
Hypothesis G : LocalsGraphProofs.good g.
Notation comp := (comp code ArgApi.binding cparam).
Variables (c : comp) (k : nat) (t : tkey).
Hypothesis HK : exists y, node g k = Some (NOp y).
Notation Y := (Y code g c k t).
Notation used := (used code g c).

(** ** Blocks *)
Lemma op_place : forall o y, node g o = Some (NOp y) -> exists e x l r, node g e = Some (NExpr x) /\ children g e = l ++ o :: r.
Proof.
  intros o y N. destruct (LocalsGraphProofs.op_has_parent G o N) as (e & te & Ne & J). apply in_split in J. destruct J as (l & r & J). eauto 6.
Qed.
Lemma next_some : forall o y b, node g o = Some (NOp y) -> (Locals.op_next g o = Ok (Some b) <-> next_block g o b).
Proof.
  intros o y b N. split.
  - intros H. destruct (op_place _ _ N) as (e & x & l & r & Ne & C). rewrite (@LocalsGraphProofs.op_next_ok _ G _ _ _ _ _ Ne C) in H. destruct r as [|b' r]; [discriminate|].
    injection H as <-. exists e, x, l, r. auto.
  - intros (e & x & l & r & Ne & C). now rewrite (@LocalsGraphProofs.op_next_ok _ G _ _ _ _ _ Ne C).
Qed.
Lemma next_none : forall o y, node g o = Some (NOp y) -> (Locals.op_next g o = Ok None <-> exists e, last_block g e o).
Proof.
  intros o y N. split.
  - intros H. destruct (op_place _ _ N) as (e & x & l & r & Ne & C). rewrite (@LocalsGraphProofs.op_next_ok _ G _ _ _ _ _ Ne C) in H. destruct r as [|b' r]; [|discriminate].
    exists e, x, l. auto.
  - intros (e & x & l & Ne & C). now rewrite (@LocalsGraphProofs.op_next_ok _ G _ _ _ _ _ Ne C).
Qed.

(** ** Variables *)
Definition known_at (n : nat) : Prop := kn c n TyGraph.In_ <> None /\ kn c n TyGraph.Out_ <> None.
Lemma var_parent : forall m x, node g m = Some (NVar x) -> exists o y, node g o = Some (NOp y) /\ In m (children g o) /\ Locals.arg_op g m = Ok o.
Proof.
  intros m x N. assert (A : Locals.is_arg g m = true) by (unfold Locals.is_arg; now rewrite N). apply (LocalsGraphProofs.is_arg_spec G) in A.
  destruct A as (o & y & No & J & _). exists o, y. split; [auto|]. split; [auto|]. exact (@LocalsGraphProofs.arg_op_ok _ G _ _ J).
Qed.
Lemma create_ok : forall m u v, (exists q, create_var g c m u = Good (inl v, q)) <->
  exists x o y, node g m = Some (NVar x) /\ node g o = Some (NOp y) /\ In m (children g o) /\
  (((exists e, last_block g e o) /\ v = (u, None)) \/
   exists b u' s, next_block g o b /\ v = (u', Some s) /\ declared c b (tg_str x) (Locals.EVar u' s)).
Proof.
  intros m u v. unfold create_var. split.
  - intros (q & H). destruct (node g m) as [[| | | | | | |x|]|] eqn:N; try discriminate. destruct (var_parent _ _ N) as (o & y & No & J & A). rewrite A in H. cbn [sure obind] in H.
    exists x, o, y. repeat (split; [assumption || reflexivity|]). destruct (Locals.op_next g o) as [[b|]|?|] eqn:E; cbn [sure obind] in H; try discriminate.
    + right. apply (next_some _ _ _ No) in E. destruct (Locals.new_var (c_lg c) b (tg_str x) u) as [[[u' s|to]|]|?|] eqn:V; cbn [sure obind] in H; try discriminate. injection H as <- _.
      apply new_var_ok in V. destruct V as (u2 & s2 & V & D). injection V as <- <-. eauto 8.
    + left. injection H as <- _. split; [|reflexivity]. now apply (next_none _ _ No).
  - intros (x & o & y & N & No & J & H). rewrite N, (@LocalsGraphProofs.arg_op_ok _ G _ _ J). cbn [sure obind]. destruct H as [(L & ->)|(b & u' & s & B & -> & D)].
    + apply (next_none _ _ No) in L. rewrite L. cbn. eexists. reflexivity.
    + apply (next_some _ _ _ No) in B. rewrite B. cbn [sure obind].
      assert (V : Locals.new_var (c_lg c) b (tg_str x) u = Ok (inl (Locals.EVar u' s))) by (apply new_var_ok; eauto). rewrite V. cbn. eexists. reflexivity.
Qed.
Lemma Y_make : forall u p fl ns y, Y (PNext (ok (fun b => PCreate (b_node b) u (ok p)))) fl ns y <->
  exists n ns' v, ns = n :: ns' /\ makes code g c n u v /\ known_at n /\ Y (p v) fl ns' y.
Proof.
  intros u p fl ns y. rewrite Y_next. destruct ns as [|n ns].
  { cbn [ok]. rewrite Y_fail. split; [tauto|]. intros (n & ns' & v & E & _). discriminate. }
  cbn [ok]. split.
  - intros (b & N & H). apply new_arg_ok in N. destruct N as (i & o & m & KI & KO & S & ->). apply Y_create in H. cbn [b_node] in H. destruct H as ([[v|e] q] & C & H); cbn in H; [|now apply Y_fail in H].
    assert (C' : exists q, create_var g c m u = Good (inl v, q)) by eauto. apply create_ok in C'. destruct C' as (x & o' & y' & C').
    exists n, ns, v. split; [reflexivity|]. split; [exists m, x, o', y'; tauto|]. split; [split; congruence|exact H].
  - intros (n' & ns' & v & E & (m & x & o & y' & S & M) & (K1 & K2) & H). injection E as <- <-. destruct (kn c n TyGraph.In_) as [i|] eqn:KI; [|congruence]. destruct (kn c n TyGraph.Out_) as [o1|] eqn:KO; [|congruence].
    apply follow_iff in S. eexists. split; [unfold new_arg; rewrite KI, KO; cbn [expect obind]; rewrite S; reflexivity|]. apply Y_create. cbn [b_node].
    assert (C : exists q, create_var g c m u = Good (inl v, q)) by (apply create_ok; exists x, o, y'; tauto). destruct C as (q & C). rewrite C. eexists. split; [reflexivity|exact H].
Qed.
Lemma Y_inject_next : forall x u p fl ns y, Y (inject_next x u p) fl ns y <-> exists n ns' u' s, ns = n :: ns' /\ declared c n (lit x) (Locals.EVar u' s) /\ Y (p (u', s)) fl ns y.
Proof.
  intros x u p fl ns y. unfold inject_next. rewrite Y_peek. destruct ns as [|n ns]; cbn [head_of].
  { rewrite Y_fail. split; [tauto|]. intros (n & ns' & u' & s & E & _). discriminate. }
  rewrite Y_inject. unfold inject_var. split.
  - intros (r & H & Q). destruct (Locals.new_var (c_lg c) n (lit x) u) as [[[u' s|to]|]|?|] eqn:V; cbn [sure obind] in H; try discriminate; injection H as <-; cbn in Q; [|now apply Y_fail in Q].
    apply new_var_ok in V. destruct V as (u2 & s2 & V & D). injection V as <- <-. eauto 8.
  - intros (n' & ns' & u' & s & E & D & H). injection E as <- <-. assert (V : Locals.new_var (c_lg c) n (lit x) u = Ok (inl (Locals.EVar u' s))) by (apply new_var_ok; eauto).
    rewrite V. cbn [sure obind]. eexists. split; [reflexivity|exact H].
Qed.
(** Values and their variables *)
Inductive bound (rep : tkey -> ty) : list nat -> list argument -> list (ty * option nat) -> Prop :=
| bound_end : bound rep [] [] []
| bound_one : forall n m a v ns l vs, used n a -> ar_in a = t -> makes code g c m (rep (ar_out a)) v -> known_at m -> bound rep ns l vs -> bound rep (n :: m :: ns) (a :: l) (v :: vs).
Lemma Y_lets : forall rep n acc vs p fl ns y, Y (lets rep n acc vs p) fl ns y <-> exists ns1 ns2 l ws, ns = ns1 ++ ns2 /\ length ns1 = n + n /\ bound rep ns1 l ws /\ Y (p (acc ++ l) (vs ++ ws)) fl ns2 y.
Proof.
  intros rep. induction n as [|n IH]; intros acc vs p fl ns y; cbn [lets].
  - split.
    + intros H. exists [], ns, [], []. rewrite !app_nil_r. repeat split; auto. constructor.
    + intros (ns1 & ns2 & l & ws & -> & L & F & H). destruct ns1; [|discriminate]. inversion F; subst. rewrite !app_nil_r in H. exact H.
  - rewrite Y_any_arg by exact G. split.
    + intros (m & ns' & a & -> & U & I & H). apply Y_make in H. destruct H as (m2 & ns'' & v & -> & M & KN & H). apply IH in H. destruct H as (ns1 & ns2 & l & ws & -> & L & F & H).
      exists (m :: m2 :: ns1), ns2, (a :: l), (v :: ws). rewrite <- !app_assoc in H. cbn in *. split; [auto|]. split; [lia|]. split; [|exact H]. constructor; auto.
    + intros (ns1 & ns2 & l & ws & -> & L & F & H). destruct F as [|n1 m a v ns1 l ws U I M KN F]; [discriminate|]. cbn in L.
      exists n1, (m :: ns1 ++ ns2), a. repeat split; auto. apply Y_make. exists m, (ns1 ++ ns2), v. repeat split; try apply KN; auto. apply IH. exists ns1, ns2, l, ws. rewrite <- !app_assoc. cbn in *. repeat split; auto. lia.
Qed.

(** ** What is wanted *)
Lemma output_wants : forall u, output_ty g c k = Good (Some u) <-> wants g c k u.
Proof.
  intros u. destruct HK as (y & N). unfold output_ty, wants. destruct (ty_at c k TyGraph.Out_) as [v|] eqn:T.
  - apply ty_at_typed in T. split.
    + intros H. injection H as <-. auto.
    + intros [H|(H & _)]; [|now apply H in T]. f_equal. f_equal. eapply typed_fun; eauto.
  - assert (NT : forall v, ~ typed c k TyGraph.Out_ v) by (intros v Z; apply ty_at_typed in Z; congruence).
    destruct (op_place _ _ N) as (e & x & l & r & Ne & C).
    assert (UE : forall e' x', node g e' = Some (NExpr x') -> In k (children g e') -> e' = e).
    { intros e' x' Ne' J. pose proof (@LocalsGraphProofs.op_parent_ok _ G _ _ _ Ne' J) as Z. rewrite (@LocalsGraphProofs.op_parent_ok _ G _ _ k Ne) in Z by (rewrite C; apply in_or_app; right; now left). congruence. }
    assert (ND : NoDup (children g e)) by (apply (LocalsGraphProofs.children_nodup G)).
    rewrite (@LocalsGraphProofs.op_next_ok _ G _ _ _ _ _ Ne C). cbn [sure obind]. destruct r as [|b r]; cbn [hd_error].
    + rewrite (@LocalsGraphProofs.op_parent_ok _ G _ _ k Ne) by (rewrite C; apply in_or_app; right; now left). cbn [sure obind]. split.
      * intros H. injection H as H. apply ty_at_typed in H. right. split; [auto|]. right. exists e. split; [exists x, l; auto|auto].
      * intros [H|(_ & [(b & (e' & x' & l' & r' & Ne' & C') & H)|(e' & (x' & l' & Ne' & C') & H)])].
        -- now apply NT in H.
        -- exfalso. assert (e' = e) as -> by (apply (UE e' x' Ne'); rewrite C'; apply in_or_app; right; now left).
           assert (Z : Locals.op_next g k = Ok (Some b)) by (apply (next_some _ _ _ N); exists e, x', l', r'; auto).
           rewrite (@LocalsGraphProofs.op_next_ok _ G _ _ _ _ _ Ne C) in Z. discriminate.
        -- assert (e' = e) as -> by (apply (UE e' x' Ne'); rewrite C'; apply in_or_app; right; now left). apply ty_at_typed in H. now rewrite H.
    + split.
      * intros H. injection H as H. apply ty_at_typed in H. right. split; [auto|]. left. exists b. split; [exists e, x, l, r; auto|auto].
      * assert (Z : Locals.op_next g k = Ok (Some b)) by (apply (next_some _ _ _ N); exists e, x, l, r; auto).
        intros [H|(_ & [(b' & B & H)|(e' & L & H)])]; [now apply NT in H| |].
        -- apply (next_some _ _ _ N) in B. assert (b' = b) as -> by congruence. apply ty_at_typed in H. now rewrite H.
        -- exfalso. assert (Q : Locals.op_next g k = Ok None) by (apply (next_none _ _ N); eauto). congruence.
Qed.
Lemma Y_wants : forall p e fl ns y, Y (POutput (fun u => match u with Some u => p u | None => PFail code e end)) fl ns y <-> exists u, wants g c k u /\ Y (p u) fl ns y.
Proof.
  intros p e fl ns y. rewrite Y_output. split.
  - intros ([u|] & O & H); [|now apply Y_fail in H]. exists u. split; [now apply output_wants|auto].
  - intros (u & W & H). exists (Some u). split; [now apply output_wants|auto].
Qed.

(** ** Flags *)
Lemma named_some : forall x fl f l, take_named x fl = Some (f, l) -> tg_str f = x /\ Permutation (map tg_str fl) (x :: map tg_str l).
Proof.
  intros x. induction fl as [|f0 fl IH]; intros f l H; cbn in H; [discriminate|]. destruct (take_named x fl) as [[f' r]|] eqn:E.
  - injection H as <- <-. destruct (IH _ _ eq_refl) as (IH1 & IH2). split; [auto|]. cbn. rewrite IH2. apply perm_swap.
  - destruct (str_eqb (tg_str f0) x) eqn:S; [|discriminate]. injection H as <- <-. destruct (str_eqb_spec (tg_str f0) x); [|discriminate]. split; [auto|]. cbn. subst. auto.
Qed.
Lemma named_none : forall x fl, take_named x fl = None -> ~ In x (map tg_str fl).
Proof.
  intros x. induction fl as [|f0 fl IH]; intros H; cbn in *; [tauto|]. destruct (take_named x fl) as [[f' r]|] eqn:E; [discriminate|].
  destruct (str_eqb_spec (tg_str f0) x); [discriminate|]. intros [J|J]; [auto|]. now apply IH.
Qed.
Lemma Y_named : forall x p fl ns y, Y (named_flag x p) fl ns y ->
  (exists fl', Permutation (lit x :: map tg_str fl') (map tg_str fl) /\ Y (p true) fl' ns y) \/ (~ In (lit x) (map tg_str fl) /\ Y (p false) fl ns y).
Proof.
  intros x p fl ns y H. unfold named_flag in H. apply Y_flag in H. cbn [take_flag] in H. destruct (take_named (lit x) fl) as [[f l]|] eqn:E.
  - left. exists l. split; [symmetry; eapply named_some; eauto|auto].
  - right. split; [now apply named_none|auto].
Qed.
Lemma named_true : forall x p fl ns y l, Permutation (lit x :: l) (map tg_str fl) -> (forall fl', Permutation l (map tg_str fl') -> Y (p true) fl' ns y) -> Y (named_flag x p) fl ns y.
Proof.
  intros x p fl ns y l Q H. unfold named_flag. apply Y_flag. cbn [take_flag]. destruct (take_named (lit x) fl) as [[f l']|] eqn:E.
  - apply H. apply (named_some (lit x)) in E. destruct E as (_ & E). rewrite E in Q. now apply Permutation_cons_inv in Q.
  - apply named_none in E. destruct E. apply (Permutation_in _ Q). now left.
Qed.
Lemma named_false : forall x p fl ns y l, Permutation l (map tg_str fl) -> ~ In (lit x) l -> Y (p false) fl ns y -> Y (named_flag x p) fl ns y.
Proof.
  intros x p fl ns y l Q N H. unfold named_flag. apply Y_flag. cbn [take_flag]. destruct (take_named (lit x) fl) as [[f l']|] eqn:E; [|exact H].
  exfalso. apply N. apply (Permutation_in _ (Permutation_sym Q)). apply named_some in E. destruct E as (_ & E). apply (Permutation_in _ (Permutation_sym E)). now left.
Qed.
Lemma Y_flag_type : forall types p fl ns y, Y (flag_type types p) fl ns y <->
  match fl with [] => Y (p None) [] ns y | f :: fl => exists u, type_flag types (tg_str f) = Some u /\ Y (p (Some u)) fl ns y end.
Proof.
  intros types p fl ns y. unfold flag_type. rewrite Y_flag. cbn [take_flag]. destruct fl as [|f fl]; [reflexivity|]. destruct (type_flag types (tg_str f)) as [u|].
  - split; [eauto|]. intros (u' & E & H). now injection E as <-.
  - rewrite Y_fail. split; [tauto|]. intros (u & E & _). discriminate.
Qed.
Lemma Y_assert : forall u p fl ns y, Y (assert_input t u p) fl ns y <-> t = u /\ Y p fl ns y.
Proof.
  intros u p fl ns y. unfold assert_input. destruct (tkey_eqb t u) eqn:E.
  - apply tkey_eqb_eq in E. tauto.
  - rewrite Y_fail. split; [tauto|]. intros (-> & _). rewrite tkey_refl in E. discriminate.
Qed.
End A.
