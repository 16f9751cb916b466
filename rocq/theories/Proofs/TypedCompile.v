(** Compiled programs are type sound. *)
From Coq Require Import String List ZArith NArith Bool Lia.
From Verif Require Import Model.Base Model.Value Model.TableCrate Model.RowPar Model.TableOps Model.Tuple Model.Exec Model.Intrinsics
  Model.Compare Model.Typed Spec.TableSpec Spec.TypeSpec Spec.ExecSpec Spec.CompareSpec Spec.TypingSpec Proofs.RegistryProofs Proofs.LinkProofs
  Proofs.ListLemmas Proofs.CompareProofs Proofs.TypedProofs Proofs.TypedOps Proofs.TypedSound Proofs.TypedAll.
Import ListNotations.

(** ** Induction over programs *)
Section ProgramInd.
  Variables (P : block -> Prop) (Q : argument -> Prop).
  Hypothesis Hop : forall p rows args, Forall Q args -> P (KOp p rows args).
  Hypothesis Hlet : forall bs tr, Forall (fun b => Q (fst b)) bs -> P (KLet bs tr).
  Hypothesis Hcall : forall ps args body, Forall Q args -> Forall P body -> P (KCall ps args body).
  Hypothesis Hlit : forall i t l, Q (Arg i t (ALit l)).
  Hypothesis Hinput : forall i t, Q (Arg i t AInput).
  Hypothesis Hvar : forall i t x, Q (Arg i t (AVar x)).
  Hypothesis Hexpr : forall i t e, Forall P e -> Q (Arg i t (AExpr e)).
  Fixpoint block_ind2 (b : block) : P b :=
    match b return P b with
    | KOp p rows args => Hop p rows args
        ((fix go (l : list argument) : Forall Q l :=
            match l with [] => Forall_nil _ | a :: l => Forall_cons _ (argument_ind2 a) (go l) end) args)
    | KLet bs tr => Hlet bs tr
        ((fix go (l : list (argument * (str * option nat))) : Forall (fun b => Q (fst b)) l :=
            match l with [] => Forall_nil _ | p :: l => Forall_cons _ (argument_ind2 (fst p)) (go l) end) bs)
    | KCall ps args body => Hcall ps args body
        ((fix go (l : list argument) : Forall Q l :=
            match l with [] => Forall_nil _ | a :: l => Forall_cons _ (argument_ind2 a) (go l) end) args)
        ((fix go (l : list block) : Forall P l :=
            match l with [] => Forall_nil _ | a :: l => Forall_cons _ (block_ind2 a) (go l) end) body)
    end
  with argument_ind2 (a : argument) : Q a :=
    match a return Q a with
    | Arg i t k =>
        match k return Q (Arg i t k) with
        | ALit l => Hlit i t l
        | AInput => Hinput i t
        | AVar x => Hvar i t x
        | AExpr e => Hexpr i t e
            ((fix go (l : list block) : Forall P l :=
                match l with [] => Forall_nil _ | a :: l => Forall_cons _ (block_ind2 a) (go l) end) e)
        end
    end.
End ProgramInd.

Section Compile.
Variable W : Type.
Variable U : ty -> Prop.
Hypothesis HU : universe U.
Variable Sg : nat -> ty.
Variable L : nat.
Local Notation step := (step W).
Local Notation hold := (hold W).
Local Notation node := (node W).
Local Notation is_a := (is_a U).
Local Notation hold_ok := (hold_ok W U Sg L).
Local Notation step_ok := (step_ok W U Sg L).
Local Notation steps_ok := (steps_ok W U Sg L).
Local Notation act_ok := (act_ok W U Sg L).
Local Notation node_ok := (node_ok W U Sg L).
Local Notation env_ok := (env_ok U Sg L).
Local Notation plain := (plain W).
Local Notation good_holds := (Forall2 (fun h g => hold_ok (sg_env g) (sg_in g) h (sg_out g))).
Local Notation tscope := (tscope W).
Local Notation local := (local W).

(** ** The parts of compiling *)
Definition op_args (g : tscope) (p : prim) (rows : nat -> nat) : nat -> list argument -> list (node * list fact) :=
  fix go (i : nat) (args : list argument) : list (node * list fact) :=
    match args with
    | [] => []
    | a :: args =>
        (if injects p i
         then compile_arg (bind_local (lit "row") (LVar W (rows i) TTabRow) g) (Some (Some (rows i))) a
         else compile_arg g None a) :: go (S i) args
    end.
Definition let_nodes (g : tscope) : list (argument * (str * option nat)) -> list (node * (str * option nat) * list fact) :=
  fix go (bs : list (argument * (str * option nat))) : list (node * (str * option nat) * list fact) :=
    match bs with
    | [] => []
    | (a, x) :: bs => let r := compile_arg g None a in (fst r, x, snd r) :: go bs
    end.
Definition call_nodes (g : tscope) : list argument -> list (node * list fact) :=
  fix go (args : list argument) : list (node * list fact) :=
    match args with [] => [] | a :: args => compile_arg g None a :: go args end.

Lemma compile_op (g : tscope) in_ty p rows args : compile_blk g in_ty (KOp p rows args) =
  let? r := op_of p in_ty (map fst (op_args g p rows 0 args)) in
  Ok (fst r, snd r, g, FTy (snd r) :: flat_map snd (op_args g p rows 0 args)).
Proof. reflexivity. Qed.
Lemma compile_let (g : tscope) in_ty bs tr : compile_blk g in_ty (KLet bs tr) =
  let? r := let_op in_ty (map fst (let_nodes g bs)) tr in
  Ok (fst r, in_ty, see_bound (snd r) g, bound_facts (snd r) ++ flat_map snd (let_nodes g bs)).
Proof. reflexivity. Qed.
Lemma compile_call (g : tscope) in_ty ps args body : compile_blk g in_ty (KCall ps args body) =
  let? r := call_params in_ty ps (map fst (call_nodes g args)) (no_locals W) in
  let '(l, g', fs) := r in
  let? r := compile g' in_ty body in
  let '(c, t, fs') := r in Ok (Def l c, t, g, flat_map snd (call_nodes g args) ++ fs ++ fs').
Proof. reflexivity. Qed.
Lemma compile_expr (g : tscope) row tin tout e : compile_arg g row (Arg tin tout (AExpr e)) =
  let base := FTy tin :: FTy tout :: match row with Some (Some s) => [FSlot s TTabRow] | _ => [] end in
  match compile g tin e with
  | Ok (l, t, fs) => (Node tin tout (Ok (HExpr l, t)) row, base ++ fs)
  | Err n => (Node tin tout (Err n) row, base)
  | Panic => (Node tin tout Panic row, base)
  end.
Proof. reflexivity. Qed.

(** ** What is kept *)
Definition fact_ok (f : fact) : Prop := match f with FTy t => U t | FSlot s t => s < L /\ Sg s = t /\ U t end.
Definition local_ok (D : slots) (l : local) : Prop :=
  match l with LVar _ s t => D s /\ Sg s = t /\ U t | LPtr n => node_ok D n /\ plain n end.
Definition scope_ok (g : tscope) (D : slots) : Prop := forall x l, g x = Some l -> local_ok D l.
Definition row_env (row : option (option nat)) (D : slots) : slots := match row with Some (Some s) => also D s | _ => D end.

Lemma node_within D D' n : within D D' -> node_ok D n -> node_ok D' n.
Proof.
  intros I (H1 & H2 & H3 & H4). split; [exact H1|]. split; [exact H2|]. split; [|exact H4]. intros h t E. destruct (H3 h t E) as [Ut K].
  split; auto. eapply hold_within; [|exact K]. unfold with_row. destruct (n_binder n) as [[s|]|]; auto. intros x [->|Hx]; [left; reflexivity|right; auto].
Qed.
Lemma local_within D D' l : within D D' -> local_ok D l -> local_ok D' l.
Proof. intros I. destruct l; cbn; [intuition auto|]. intros [H1 H2]. split; auto. eapply node_within; eauto. Qed.
Lemma scope_within D D' g : within D D' -> scope_ok g D -> scope_ok g D'.
Proof. intros I H x l E. eapply local_within; eauto. Qed.
Lemma scope_bind D g x l : local_ok D l -> scope_ok g D -> scope_ok (bind_local x l g) D.
Proof. intros Hl Hg y l' E. unfold bind_local in E. destruct (str_eqb x y); [injection E as <-; exact Hl|]. eapply Hg; eauto. Qed.
Lemma within_refl (D : slots) : within D D.
Proof. intros s H. exact H. Qed.
Lemma within_trans (A B C : slots) : within A B -> within B C -> within A C.
Proof. intros H1 H2 s H. auto. Qed.
Lemma within_also (D : slots) s : within D (also D s).
Proof. intros x H. right. exact H. Qed.

Definition blk_ok (b : block) : Prop := forall (g : tscope) in_ty (D : slots) s t g' fs,
  compile_blk g in_ty b = Ok (s, t, g', fs) -> proper_blk b -> Forall fact_ok fs -> U in_ty -> scope_ok g D ->
  exists D' : slots, within D D' /\ step_ok D in_ty s t D' /\ U t /\ scope_ok g' D'.
Definition arg_ok (a : argument) : Prop := forall (g : tscope) row (D : slots) n fs,
  compile_arg g row a = (n, fs) -> proper_arg a -> Forall fact_ok fs -> scope_ok g (row_env row D) ->
  node_ok D n /\ n_binder n = row.

Lemma compile_ok bs : Forall blk_ok bs -> forall (g : tscope) in_ty (D : slots) l t fs,
  compile g in_ty bs = Ok (l, t, fs) -> Forall proper_blk bs -> Forall fact_ok fs -> U in_ty -> scope_ok g D ->
  exists D' : slots, within D D' /\ steps_ok D in_ty l t D' /\ U t.
Proof.
  induction 1 as [|b bs Hb F IH]; intros g in_ty D l t fs H Hp Hf Ui Hg; cbn [compile] in H.
  - injection H as <- <- <-. exists D. split; [apply within_refl|]. split; [apply steps_nil|exact Ui].
  - destruct (compile_blk g in_ty b) as [[[[s t1] g1] fs1]| |] eqn:E1; try discriminate. cbn [rbind] in H.
    destruct (compile g1 t1 bs) as [[[l2 t2] fs2]| |] eqn:E2; try discriminate. cbn [rbind] in H. injection H as <- <- <-.
    apply Forall_app in Hf. destruct Hf as [Hf1 Hf2]. inversion Hp as [|? ? Hp1 Hp2]; subst.
    destruct (Hb _ _ _ _ _ _ _ E1 Hp1 Hf1 Ui Hg) as (D1 & I1 & S1 & U1 & G1).
    destruct (IH _ _ _ _ _ _ E2 Hp2 Hf2 U1 G1) as (D2 & I2 & S2 & U2).
    exists D2. split; [eapply within_trans; eauto|]. split; [eapply steps_cons; eauto|exact U2].
Qed.

(** *** arguments *)
Lemma base_ok tin tout row rest : Forall fact_ok ((FTy tin :: FTy tout :: match row with Some (Some s) => [FSlot s TTabRow] | _ => [] end) ++ rest) ->
  U tin /\ U tout /\ (forall s, row = Some (Some s) -> s < L /\ Sg s = TTabRow) /\ Forall fact_ok rest.
Proof.
  intro H. apply Forall_app in H. destruct H as [H H']. apply Forall_cons_iff in H. destruct H as [A1 A2]. apply Forall_cons_iff in A2. destruct A2 as [A3 A4].
  split; [exact A1|]. split; [exact A3|]. split; [|exact H']. intros s ->. apply Forall_cons_iff in A4. destruct A4 as [(A5 & A6 & _) _]. auto.
Qed.
Lemma lit_ok l : is_a (lit_value l) (ty_of (lit_value l)) /\ U (ty_of (lit_value l)).
Proof. destruct l; (split; [constructor|apply (U_base U HU); repeat (first [left; reflexivity|right])]). Qed.
Lemma make_node D tin tout h row : U tin -> U tout -> (forall s, row = Some (Some s) -> s < L /\ Sg s = TTabRow) ->
  (forall x t, h = Ok (x, t) -> U t /\ hold_ok (row_env row D) tin x t) -> node_ok D (Node tin tout h row).
Proof. intros H1 H2 H3 H4. split; [exact H1|]. split; [exact H2|]. split; [exact H4|exact H3]. Qed.

Lemma arg_lit i t l : arg_ok (Arg i t (ALit l)).
Proof.
  intros g row D n fs H _ Hf _. cbn [compile_arg] in H. injection H as <- <-. rewrite <- (app_nil_r (_ :: _)) in Hf.
  destruct (base_ok _ _ _ _ Hf) as (U1 & U2 & Hs & _). split; [|reflexivity]. apply make_node; auto. intros x u E. injection E as <- <-.
  destruct (lit_ok l). split; auto. apply hold_lit. auto.
Qed.
Lemma arg_input i t : arg_ok (Arg i t AInput).
Proof.
  intros g row D n fs H _ Hf _. cbn [compile_arg] in H. injection H as <- <-. rewrite <- (app_nil_r (_ :: _)) in Hf.
  destruct (base_ok _ _ _ _ Hf) as (U1 & U2 & Hs & _). split; [|reflexivity]. apply make_node; auto. intros x u E. injection E as <- <-.
  split; auto. unfold input_hold. eapply hold_expr with (D' := row_env row D). eapply steps_cons; [|apply steps_nil].
  apply op_ok with (args := []); [constructor|]. intros v Hv. split; [exact Hv|apply within_refl].
Qed.
Lemma arg_var i t x : arg_ok (Arg i t (AVar x)).
Proof.
  intros g row D n fs H _ Hf Hg. cbn [compile_arg] in H. injection H as <- <-. rewrite <- (app_nil_r (_ :: _)) in Hf.
  destruct (base_ok _ _ _ _ Hf) as (U1 & U2 & Hs & _). unfold var_node. destruct (g x) as [[s u|n]|] eqn:E.
  - destruct (Hg _ _ E) as (Ds & Es & Uu). split; [|reflexivity]. apply make_node; auto. intros y w Ey. injection Ey as <- <-. split; auto.
    rewrite <- Es. apply hold_var. exact Ds.
  - destruct (Hg _ _ E) as [(N1 & N2 & N3 & _) Pn]. split; [|reflexivity]. apply make_node; auto. intros y w Ey. destruct (N3 _ _ Ey) as [Uw K].
    split; auto. rewrite plain_row in K by auto. exact K.
  - split; [|reflexivity]. apply make_node; auto. intros y w Ey. discriminate.
Qed.
Lemma arg_expr i t e : Forall blk_ok e -> arg_ok (Arg i t (AExpr e)).
Proof.
  intros F g row D n fs H Hp Hf Hg. rewrite compile_expr in H. cbv zeta in H. inversion Hp as [| | |? ? ? Pe]; subst.
  destruct (compile g i e) as [[[l u] fs']|k|] eqn:E; injection H as <- <-.
  - destruct (base_ok _ _ _ _ Hf) as (U1 & U2 & Hs & Hf'). split; [|reflexivity]. apply make_node; auto. intros x w Ex. injection Ex as <- <-.
    destruct (compile_ok _ F _ _ _ _ _ _ E Pe Hf' U1 Hg) as (D' & _ & S & Uu). split; auto. eapply hold_expr; eauto.
  - rewrite <- (app_nil_r (_ :: _)) in Hf. destruct (base_ok _ _ _ _ Hf) as (U1 & U2 & Hs & _). split; [|reflexivity].
    apply make_node; auto. intros x w Ex. discriminate.
  - rewrite <- (app_nil_r (_ :: _)) in Hf. destruct (base_ok _ _ _ _ Hf) as (U1 & U2 & Hs & _). split; [|reflexivity].
    apply make_node; auto. intros x w Ex. discriminate.
Qed.

(** *** ops *)
Lemma op_args_ok g (D : slots) p rows : scope_ok g D -> forall args i, Forall arg_ok args -> Forall proper_arg args ->
  Forall fact_ok (flat_map snd (op_args g p rows i args)) ->
  Forall (node_ok D) (map fst (op_args g p rows i args)) /\
  (forall j n, nth_error (map fst (op_args g p rows i args)) j = Some n -> injects p (i + j) = false -> n_binder n = None).
Proof.
  intros Hg. induction args as [|a args IH]; intros i F Hp Hf.
  - split; [constructor|]. intros [|j] n E; discriminate.
  - inversion F as [|? ? Fa Fs]; inversion Hp as [|? ? Pa Ps]; subst. cbn [op_args flat_map map] in *.
    apply Forall_app in Hf. destruct Hf as [Hfa Hfs]. destruct (IH (S i) Fs Ps Hfs) as [IH1 IH2].
    assert (K : node_ok D (fst (if injects p i then compile_arg (bind_local (lit "row") (LVar W (rows i) TTabRow) g) (Some (Some (rows i))) a
                               else compile_arg g None a)) /\
                (injects p i = false -> n_binder (fst (if injects p i then compile_arg (bind_local (lit "row") (LVar W (rows i) TTabRow) g) (Some (Some (rows i))) a
                               else compile_arg g None a)) = None)).
    { destruct (injects p i).
      - destruct (compile_arg _ _ a) as [n fs] eqn:E. cbn [fst snd] in *. split; [|discriminate].
        assert (Hr : rows i < L /\ Sg (rows i) = TTabRow /\ U TTabRow).
        { destruct a as [tin tout k]. assert (In (FSlot (rows i) TTabRow) fs).
          { cbn [compile_arg] in E. destruct k as [l| |x|e]; try (injection E as _ <-; right; right; left; reflexivity).
            match type of E with match ?m with _ => _ end = _ => destruct m as [[[? ?] ?]|?|] end; injection E as _ <-; right; right; left; reflexivity. }
          rewrite Forall_forall in Hfa. exact (Hfa _ H). }
        apply (Fa _ _ _ _ _ E Pa Hfa). cbn [row_env]. apply scope_bind.
        + destruct Hr as (_ & R2 & R3). split; [left; reflexivity|auto].
        + eapply scope_within; [apply within_also|exact Hg].
      - destruct (compile_arg g None a) as [n fs] eqn:E. cbn [fst snd] in *. destruct (Fa _ _ _ _ _ E Pa Hfa Hg) as [K1 K2]. auto. }
    destruct K as [K1 K2]. split.
    + constructor; auto.
    + intros [|j] n E Ej; cbn [nth_error] in E.
      * injection E as <-. apply K2. rewrite Nat.add_0_r in Ej. exact Ej.
      * apply (IH2 j n E). rewrite <- Ej. f_equal. lia.
Qed.
Lemma blk_op p rows args : Forall arg_ok args -> blk_ok (KOp p rows args).
Proof.
  intros F g in_ty D s t g' fs H Hp Hf Ui Hg. rewrite compile_op in H. inversion Hp; subst.
  destruct (op_of p in_ty _) as [[s' t']| |] eqn:E; try discriminate. cbn [rbind fst snd] in H. injection H as <- <- <- <-.
  inversion Hf as [|? ? Ut Hf']; subst. assert (Pp : proper_prim p) by assumption. assert (Pa : Forall proper_arg args) by assumption.
  destruct (op_args_ok g D p rows Hg args 0 F Pa Hf') as [N1 N2].
  exists D. split; [apply within_refl|]. split; [|split; [exact Ut|exact Hg]]. eapply op_sound; eauto.
Qed.

(** *** let *)
Definition new_of (p : node * (str * option nat)) : list (str * nat * ty) :=
  let '(n, (x, s)) := p in match s with Some s => [(x, s, n_out n)] | None => [] end.
Lemma bound_app x a b : bound_slot x (a ++ b) = match bound_slot x a with Some s => Some s | None => bound_slot x b end.
Proof. induction a as [|[[y s] t] a IH]; cbn; auto. destruct (str_eqb x y); auto. Qed.
Lemma let_args_ok (D : slots) in_ty : U in_ty -> forall args bs0 hs vs bs, let_args in_ty args bs0 = Ok (hs, vs, bs) ->
  Forall (fun p => node_ok D (fst p)) args -> Forall (fun p => plain (fst p)) args ->
  NoDup (map (fun p => fst (snd p)) args) -> (forall x, In x (map (fun p => fst (snd p)) args) -> bound_slot x bs0 = None) ->
  good_holds hs (map (fun p => Sig in_ty (n_out (fst p)) D) args) /\ vs = map (fun p => snd (snd p)) args /\ bs = bs0 ++ flat_map new_of args.
Proof.
  intros Ui. induction args as [|[n [x s]] args IH]; intros bs0 hs vs bs H Hn Hp Nd Hb; cbn [let_args] in H.
  - injection H as <- <- <-. split; [constructor|]. split; [reflexivity|]. rewrite app_nil_r. reflexivity.
  - inversion Hn as [|? ? Hn0 Hns]; inversion Hp as [|? ? Hp0 Hps]; subst. cbn [map fst snd] in *.
    inversion Nd as [|? ? Nx Nd']; subst.
    destruct (supplied in_ty n) as [n'| |] eqn:E1; try discriminate. cbn [rbind] in H.
    destruct (supplied_ok W U HU _ _ _ Ui (proj1 Hn0) E1) as [-> Ein].
    destruct (concrete n) as [h| |] eqn:E2; try discriminate. cbn [rbind] in H.
    assert (K := concrete_ok W U HU Sg L D n h Hn0 E2). rewrite plain_row in K by auto. rewrite Ein in K.
    assert (E3 : new_var x s (n_out n) bs0 = (s, bs0 ++ new_of (n, (x, s)))).
    { unfold new_var, new_of. destruct s; [|rewrite app_nil_r; reflexivity]. rewrite (Hb x) by (left; reflexivity). reflexivity. }
    rewrite E3 in H. destruct (let_args in_ty args _) as [[[hs' vs'] bs']| |] eqn:E4; try discriminate. cbn [rbind] in H. injection H as <- <- <-.
    destruct (IH _ _ _ _ E4 Hns Hps Nd') as (F & -> & ->).
    { intros y Hy. rewrite bound_app, (Hb y) by (right; exact Hy). unfold new_of. destruct s; [|reflexivity]. cbn.
      destruct (str_eqb y x) eqn:Ey; [|reflexivity]. apply str_eqb_eq in Ey. subst y. contradiction. }
    split; [constructor; auto|]. split; [reflexivity|]. cbn [flat_map]. rewrite app_assoc. reflexivity.
Qed.

Lemma let_loop_ok (D : slots) in_ty v args vars : is_a v in_ty -> forall k i tr (D0 : slots),
  i + k + (if tr : bool then 1 else 0) = length vars ->
  (forall j, j < k -> exists o, nth_error args (i + j) = Some (Sig in_ty o D) /\
     forall s, nth_error vars (i + j) = Some (Some s) -> s < L /\ Sg s = o) ->
  (tr = true -> forall s, nth_error vars (i + k) = Some (Some s) -> s < L /\ Sg s = in_ty) ->
  within D D0 -> (forall j s, j < i -> nth_error vars j = Some (Some s) -> D0 s) ->
  act_ok args vars in_ty (fun s => D s \/ In (Some s) vars) D0 (let_loop W k i tr v).
Proof.
  intros Hv. induction k as [|k IH]; intros i tr D0 Hl Ha Ht H0 Hi; cbn [let_loop].
  - destruct tr.
    + cbn [act_ok]. destruct (nth_error vars i) as [[s|]|] eqn:E; [| |apply nth_error_None in E; lia].
      * rewrite Nat.add_0_r in Ht. destruct (Ht eq_refl s E) as [Ls Es]. split; [exact Ls|]. split; [rewrite Es; exact Hv|]. split; [exact Hv|].
        intros x [Hx|Hx]; [right; auto|]. destruct (In_nth_error _ _ Hx) as [j Ej].
        assert (j < length vars) by (apply nth_error_Some; congruence). destruct (Nat.eq_dec j i) as [->|N]; [left; congruence|right; apply (Hi j); auto; lia].
      * split; [exact Hv|]. intros x [Hx|Hx]; [auto|]. destruct (In_nth_error _ _ Hx) as [j Ej].
        assert (j < length vars) by (apply nth_error_Some; congruence). destruct (Nat.eq_dec j i) as [->|N]; [congruence|apply (Hi j); auto; lia].
    + split; [exact Hv|]. intros x [Hx|Hx]; [auto|]. destruct (In_nth_error _ _ Hx) as [j Ej].
      assert (j < length vars) by (apply nth_error_Some; congruence). apply (Hi j); auto. lia.
  - destruct (Ha 0 ltac:(lia)) as (o & Eo & Hs). rewrite Nat.add_0_r in Eo, Hs.
    exists (Sig in_ty o D). split; [exact Eo|]. split; [exact H0|]. split; [exact Hv|]. cbn [sg_out]. intros x Hx.
    assert (Next : forall D1 : slots, within D0 D1 -> (forall s, nth_error vars i = Some (Some s) -> D1 s) ->
      act_ok args vars in_ty (fun s => D s \/ In (Some s) vars) D1 (let_loop W k (S i) tr v)).
    { intros D1 I1 N1. apply IH.
      - lia.
      - intros j Hj. destruct (Ha (S j) ltac:(lia)) as (o' & E' & Hs'). exists o'. replace (S i + j) with (i + S j) by lia. auto.
      - intros Etr. replace (S i + k) with (i + S k) by lia. auto.
      - intros y Hy. auto.
      - intros j y Hj Ej. destruct (Nat.eq_dec j i) as [->|N]; [auto|]. apply I1. apply (Hi j); auto. lia. }
    cbn [act_ok]. destruct (nth_error vars i) as [[s|]|] eqn:E; [| |apply nth_error_None in E; lia].
    + destruct (Hs s eq_refl) as [Ls Es]. split; [exact Ls|]. split; [rewrite Es; exact Hx|]. apply Next; [apply within_also|].
      intros y Hy. left. congruence.
    + apply Next; [apply within_refl|]. intros y Hy. discriminate.
Qed.

Lemma see_bound_in bs : forall (g : tscope) y l, see_bound bs g y = Some l -> (exists s t, l = LVar W s t /\ In (y, s, t) bs) \/ g y = Some l.
Proof.
  induction bs as [|[[x s] t] bs IH]; intros g y l H; cbn in H; [auto|]. destruct (IH _ _ _ H) as [(s' & t' & -> & Hin)|E].
  - left. exists s', t'. split; [reflexivity|right; exact Hin].
  - unfold bind_local in E. destruct (str_eqb x y) eqn:Exy; [|auto]. injection E as <-. apply str_eqb_eq in Exy. subst y. left. exists s, t.
    split; [reflexivity|left; reflexivity].
Qed.
Lemma let_nodes_ok g (D : slots) : scope_ok g D -> forall bs, Forall (fun b => arg_ok (fst b)) bs -> Forall (fun b => proper_arg (fst b)) bs ->
  Forall fact_ok (flat_map snd (let_nodes g bs)) ->
  Forall (fun p => node_ok D (fst p)) (map fst (let_nodes g bs)) /\ Forall (fun p => plain (fst p)) (map fst (let_nodes g bs)) /\
  map snd (map fst (let_nodes g bs)) = map snd bs.
Proof.
  intros Hg. induction bs as [|[a x] bs IH]; intros F Hp Hf; cbn [let_nodes map flat_map] in *; [repeat split; constructor|].
  inversion F as [|? ? Fa Fs]; inversion Hp as [|? ? Pa Ps]; subst. apply Forall_app in Hf. destruct Hf as [Hfa Hfs].
  destruct (IH Fs Ps Hfs) as (I1 & I2 & I3). cbn [fst snd] in *. destruct (compile_arg g None a) as [n fs] eqn:E. cbn [fst snd] in *.
  destruct (Fa _ None D _ _ E Pa Hfa Hg) as [K1 K2]. split; [constructor; auto|]. split; [constructor; auto|]. rewrite I3. reflexivity.
Qed.

Lemma blk_let bs tr : Forall (fun b => arg_ok (fst b)) bs -> blk_ok (KLet bs tr).
Proof.
  intros F g in_ty D s t g' fs H Hp Hf Ui Hg. rewrite compile_let in H. inversion Hp as [|? ? Pb Nd|]; subst.
  destruct (let_op in_ty (map fst (let_nodes g bs)) tr) as [[st vs]| |] eqn:E; try discriminate. cbn [rbind fst snd] in H. injection H as <- <- <- <-.
  apply Forall_app in Hf. destruct Hf as [Hb Hf]. destruct (let_nodes_ok g D Hg bs F Pb Hf) as (N1 & N2 & N3).
  set (ns := map fst (let_nodes g bs)) in *. unfold binder_names in Nd.
  assert (Nm : map (fun p => fst (snd p)) ns = map (fun b => fst (snd b)) bs).
  { rewrite <- (map_map snd fst), <- (map_map snd fst bs). f_equal. exact N3. }
  rewrite <- Nm in Nd. unfold let_op in E. destruct (let_args in_ty ns []) as [[[hs xs] bs']| |] eqn:El; try discriminate. cbn [rbind] in E.
  destruct (let_args_ok D in_ty Ui ns [] hs xs bs' El N1 N2) as (G & Ex & Eb).
  { clear - Nd. induction (map (fun p => fst (snd p)) ns) as [|x l IH]; [constructor|]. inversion Nd; subst. constructor; auto. intro Hx. apply H1. apply in_or_app. auto. }
  { reflexivity. }
  cbn [app] in Eb.
  assert (Lh : length hs = length ns) by (apply Forall2_length' in G; rewrite map_length in G; exact G).
  assert (Lx : length xs = length ns) by (subst xs; apply map_length).
  (* what is bound *)
  assert (Slot : forall j n x sl, nth_error ns j = Some (n, (x, Some sl)) -> In (x, sl, n_out n) bs').
  { intros j n x sl Ej. subst bs'. apply in_flat_map. exists (n, (x, Some sl)). split; [eapply nth_error_In; eauto|left; reflexivity]. }
  assert (Known : forall x sl u, In (x, sl, u) vs -> sl < L /\ Sg sl = u /\ U u).
  { intros x sl u Hin. rewrite Forall_forall in Hb. apply (Hb (FSlot sl u)). unfold bound_facts. apply in_map_iff. exists (x, sl, u). auto. }
  assert (Args : forall vars', (forall b, In b bs' -> In b vs) -> (forall j, j < length ns -> nth_error vars' j = nth_error xs j) ->
     forall j, j < length hs -> exists o, nth_error (map (fun p => Sig in_ty (n_out (fst p)) D) ns) (0 + j) = Some (Sig in_ty o D) /\
     forall sl, nth_error vars' (0 + j) = Some (Some sl) -> sl < L /\ Sg sl = o).
  { intros vars' Sub Same j Hj. cbn [Nat.add]. rewrite nth_error_map. destruct (nth_error ns j) as [[n [x r]]|] eqn:Ej; [|apply nth_error_None in Ej; lia].
    exists (n_out n). split; [reflexivity|]. intros sl Esl. rewrite Same in Esl by lia. subst xs. rewrite nth_error_map, Ej in Esl. cbn in Esl. injection Esl as ->.
    destruct (Known x sl (n_out n)) as (K1 & K2 & _); [apply Sub; eapply Slot; eauto|]. auto. }
  assert (Sc : forall vars', (forall x sl u, In (x, sl, u) vs -> In (Some sl) vars') -> scope_ok (see_bound vs g) (fun s => D s \/ In (Some s) vars')).
  { intros vars' Hv y l El'. destruct (see_bound_in _ _ _ _ El') as [(sl & u & -> & Hin)|Eg].
    - destruct (Known _ _ _ Hin) as (K1 & K2 & K3). split; [right; eapply Hv; eauto|auto].
    - eapply local_within; [|eapply Hg; eauto]. intros z Hz. left. exact Hz. }
  assert (In1 : forall x sl u, In (x, sl, u) bs' -> In (Some sl) xs).
  { intros x sl u Hin. rewrite Eb in Hin. apply in_flat_map in Hin. destruct Hin as ([n [x' [r|]]] & Hin & Hx); [|destruct Hx].
    destruct Hx as [Hx|[]]. injection Hx as <- <- <-. rewrite Ex. apply in_map_iff. eexists. split; [|exact Hin]. reflexivity. }
  destruct tr as [[x r]|].
  - assert (Bn : bound_slot x bs' = None).
    { rewrite Eb. clear - Nd. cbn [fst] in Nd. induction ns as [|[n [y [sl|]]] ns IH]; cbn in *; auto; inversion Nd; subst; auto.
      destruct (str_eqb x y) eqn:Exy; auto. apply str_eqb_eq in Exy. subst y. exfalso. apply H1. apply in_or_app. right. left. reflexivity. }
    assert (Env : new_var x r in_ty bs' = (r, bs' ++ match r with Some sl => [(x, sl, in_ty)] | None => [] end)).
    { unfold new_var. destruct r; [rewrite Bn; reflexivity|rewrite app_nil_r; reflexivity]. }
    rewrite Env in E. injection E as <- <-.
    exists (fun s => D s \/ In (Some s) (xs ++ [r])). split; [intros z Hz; left; exact Hz|]. split; [|split; [exact Ui|]].
    + unfold let_step. eapply op_ok; [exact G|]. intros v Hv.
      replace (length hs <? length (xs ++ [r])) with true by (symmetry; apply Nat.ltb_lt; rewrite app_length; cbn; lia).
      eapply let_loop_ok; [exact Hv| | | |apply within_refl|].
      * rewrite app_length. cbn. lia.
      * apply Args; [intros b Hin; apply in_or_app; auto|]. intros j Hj. apply nth_error_app1. lia.
      * intros _ sl Esl. cbn [Nat.add] in Esl. rewrite nth_error_app2 in Esl by lia. replace (length hs - length xs) with 0 in Esl by lia. cbn in Esl. injection Esl as ->.
        destruct (Known x sl in_ty) as (K1 & K2 & _); [apply in_or_app; right; left; reflexivity|]. auto.
      * intros j sl Hj. lia.
    + apply Sc. intros y sl u Hin. apply in_app_or in Hin. destruct Hin as [Hin|Hin]; apply in_or_app; [left; eapply In1; eauto|right].
      destruct r; [|destruct Hin]. destruct Hin as [Hin|[]]. injection Hin as <- <- <-. left. reflexivity.
  - injection E as <- <-. exists (fun s => D s \/ In (Some s) xs). split; [intros z Hz; left; exact Hz|]. split; [|split; [exact Ui|]].
    + unfold let_step. eapply op_ok; [exact G|]. intros v Hv.
      replace (length hs <? length xs) with false by (symmetry; apply Nat.ltb_ge; lia).
      eapply let_loop_ok; [exact Hv| | | |apply within_refl|].
      * cbn. lia.
      * apply Args; auto.
      * discriminate.
      * intros j sl Hj. lia.
    + apply Sc. exact In1.
Qed.

(** *** calls *)
Lemma call_nodes_ok g (D : slots) : scope_ok g D -> forall args, Forall arg_ok args -> Forall proper_arg args ->
  Forall fact_ok (flat_map snd (call_nodes g args)) -> Forall (fun n => node_ok D n /\ plain n) (map fst (call_nodes g args)).
Proof.
  intros Hg. induction args as [|a args IH]; intros F Hp Hf; cbn [call_nodes map flat_map] in *; [constructor|].
  inversion F as [|? ? Fa Fs]; inversion Hp as [|? ? Pa Ps]; subst. apply Forall_app in Hf. destruct Hf as [Hfa Hfs].
  constructor; auto. destruct (compile_arg g None a) as [n fs] eqn:E. exact (Fa _ None D _ _ E Pa Hfa Hg).
Qed.
Lemma call_params_ok in_ty : U in_ty -> forall ps args g l g' fs (D : slots), call_params in_ty ps args g = Ok (l, g', fs) ->
  Forall (fun n => node_ok D n /\ plain n) args -> Forall fact_ok fs -> scope_ok g D ->
  exists D' : slots, within D D' /\ scope_ok g' D' /\
    forall v e w, is_a v in_ty -> env_ok D e ->
    behaves (env_ok D') (snd (bind_params (fun e => e) (map (fun p => (fst p, resolve (snd p))) l) v e w)).
Proof.
  intros Ui. induction ps as [|[x [sl ot|]] ps IH]; intros [|n args] g l g' fs D H Hn Hf Hg; cbn [call_params] in H; try discriminate.
  - injection H as <- <- <-. exists D. split; [apply within_refl|]. split; [exact Hg|]. intros v e w _ He. exact He.
  - inversion Hn as [|? ? [Hn0 Hp0] Hns]; subst.
    destruct (supplied in_ty n) as [n'| |] eqn:E1; try discriminate. cbn [rbind] in H.
    destruct (supplied_ok W U HU _ _ _ Ui (proj1 Hn0) E1) as [-> Ein].
    destruct (match ot with Some t => returns t n | None => Ok n end) as [n'| |] eqn:E2; try discriminate. cbn [rbind] in H.
    assert (n' = n). { destruct ot as [t|]; [|congruence]. unfold returns in E2. destruct (ty_eqb _ _); congruence. } subst n'.
    destruct (concrete n) as [h| |] eqn:E3; try discriminate. cbn [rbind] in H.
    assert (K := concrete_ok W U HU Sg L D n h Hn0 E3). rewrite plain_row in K by auto. rewrite Ein in K.
    destruct (call_params in_ty ps args _) as [[[l1 g1] fs1]| |] eqn:E4; try discriminate. cbn [rbind] in H. injection H as <- <- <-.
    apply Forall_cons_iff in Hf. destruct Hf as [(Ls & Es & Uo) Hf']. apply Forall_app in Hf'. destruct Hf' as [_ Hf1].
    destruct (IH _ _ _ _ _ (also D sl) E4) as (D' & I' & G' & B').
    { eapply Forall_impl; [|exact Hns]. intros m [M1 M2]. split; auto. eapply node_within; [apply within_also|exact M1]. }
    { exact Hf1. }
    { apply scope_bind; [split; [left; reflexivity|auto]|]. eapply scope_within; [apply within_also|exact Hg]. }
    exists D'. split; [eapply within_trans; [apply within_also|exact I']|]. split; [exact G'|]. intros v e w Hv He. cbn [map bind_params fst snd].
    eapply behaves_bind; [apply K; auto|]. intros y w1 Hy. rewrite <- Es in Hy. destruct (env_set U Sg L D e sl y Ls He Hy) as (e' & Ee & He').
    unfold bind, lift. cbn [set_data]. rewrite Ee. apply B'; auto.
  - inversion Hn as [|? ? Hn0 Hns]; subst. eapply IH; eauto. apply scope_bind; auto.
Qed.
Lemma blk_call ps args body : Forall arg_ok args -> Forall blk_ok body -> blk_ok (KCall ps args body).
Proof.
  intros Fa Fb g in_ty D s t g' fs H Hp Hf Ui Hg. rewrite compile_call in H. inversion Hp as [| |? ? ? Pa Pb]; subst.
  destruct (call_params in_ty ps _ _) as [[[l g1] fs1]| |] eqn:E1; try discriminate. cbn [rbind] in H.
  destruct (compile g1 in_ty body) as [[[c t2] fs2]| |] eqn:E2; try discriminate. cbn [rbind] in H. injection H as <- <- <- <-.
  apply Forall_app in Hf. destruct Hf as [Hfa Hf]. apply Forall_app in Hf. destruct Hf as [Hf1 Hf2].
  destruct (call_params_ok in_ty Ui _ _ _ _ _ _ D E1 (call_nodes_ok g D Hg args Fa Pa Hfa) Hf1) as (D1 & I1 & G1 & B1).
  { intros x y E. discriminate. }
  destruct (compile_ok _ Fb _ _ _ _ _ _ E2 Pb Hf2 Ui G1) as (D2 & I2 & S2 & U2).
  exists D. split; [apply within_refl|]. split; [|split; [exact U2|exact Hg]].
  intros v e w Hv He. rewrite invoke_def. eapply behaves_bind; [apply B1; auto|]. intros e' w' He'.
  eapply behaves_imp; [|apply S2; auto]. intros [x e2] [Hx Hx2]. split; auto. eapply env_within; [|exact Hx2]. eapply within_trans; eauto.
Qed.

Theorem all_blks_ok b : blk_ok b.
Proof.
  apply (block_ind2 blk_ok arg_ok); [apply blk_op|apply blk_let|apply blk_call|apply arg_lit|apply arg_input|apply arg_var|apply arg_expr].
Qed.
Theorem compiled_ok g in_ty (D : slots) bs l t fs : compile g in_ty bs = Ok (l, t, fs) -> Forall proper_blk bs -> Forall fact_ok fs -> U in_ty -> scope_ok g D ->
  exists D' : slots, within D D' /\ steps_ok D in_ty l t D' /\ U t.
Proof. apply compile_ok. apply Forall_forall. intros b _. apply all_blks_ok. Qed.
End Compile.

(** ** Whole programs *)
Fixpoint slot_type (fs : list fact) (s : nat) : ty :=
  match fs with
  | [] => TNil
  | FSlot s' t :: fs => if Nat.eqb s s' then t else slot_type fs s
  | FTy _ :: fs => slot_type fs s
  end.
Lemma slot_type_in fs s t : NoDup (slots_used fs) -> In (FSlot s t) fs -> slot_type fs s = t.
Proof.
  induction fs as [|[u|s' u] fs IH]; intros Nd Hin; [destruct Hin| |].
  - destruct Hin as [E|Hin]; [discriminate|]. apply IH; auto.
  - cbn [slots_used flat_map app] in Nd. fold (slots_used fs) in Nd. inversion Nd; subst. cbn [slot_type]. destruct Hin as [E|Hin].
    + injection E as <- <-. rewrite Nat.eqb_refl. reflexivity.
    + destruct (Nat.eqb_spec s s') as [->|_]; [|apply IH; auto]. exfalso. apply H1. apply in_flat_map. exists (FSlot s' t). split; auto. left. reflexivity.
Qed.

Theorem program_sound W U in_ty bs l t fs L v w : universe U ->
  compile (no_locals W) in_ty bs = Ok (l, t, fs) -> Forall proper_blk bs ->
  Forall U (in_ty :: types_used fs) -> NoDup (slots_used fs) -> Forall (fun s => s < L) (slots_used fs) ->
  is_a U v in_ty -> U t /\ behaves (fun p => is_a U (fst p) t) (snd (eval l v (env_new L) w)).
Proof.
  intros HU H Hp Hu Nd Ls Hv. inversion Hu as [|? ? Ui Ut]; subst.
  destruct (compiled_ok W U HU (slot_type fs) L _ _ (fun _ => False) _ _ _ _ H Hp) as (D' & _ & S & Uo).
  - apply Forall_forall. intros f Hf. assert (Uf : U (match f with FTy t | FSlot _ t => t end)).
    { rewrite Forall_forall in Ut. apply Ut. unfold types_used. apply in_map_iff. exists f. auto. }
    destruct f as [u|s u]; [exact Uf|]. split; [|split; [apply slot_type_in; auto|exact Uf]].
    rewrite Forall_forall in Ls. apply Ls. apply in_flat_map. exists (FSlot s u). split; auto. left. reflexivity.
  - exact Ui.
  - intros x y E. discriminate.
  - split; auto. eapply behaves_imp; [|apply S; [exact Hv|]].
    + intros p [Hx _]. exact Hx.
    + split; [apply repeat_length|]. intros s [].
Qed.
