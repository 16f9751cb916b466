(** What is compiled runs from type to type; results do not depend on the fuel; when the loop has nothing to report. *)
From Coq Require Import String List ZArith NArith Bool Arith Lia.
From Verif Require Import Model.Base Model.Value Model.Ast Model.Registry Model.AstGraph Model.TyBuild Model.Compile Spec.AstGraphSpec Spec.TyBuildSpec
  Proofs.RegistryProofs Proofs.AstGraphProofs Proofs.TyBuildBase Proofs.TyBuildNodes Proofs.TyBuildProofs.
From Verif Require Proofs.LocalsGraphProofs Proofs.LocalsBuildProofs.
From Verif Require Import Spec.CompileSpec Proofs.CompileProofs Proofs.CompileInv.
From Verif Require Model.TyGraph Model.Locals Model.Infer Spec.TyGraphSpec Proofs.TyGraphProofs.
Import ListNotations.

Section Runs.
Variables (P A Q : Type) (s : defs) (e : expr) (root : tkey) (anon : list tkey) (g : graph) (tg0 : tg_t).
Hypothesis HS : start s e root anon = Ok (g, tg0).
Hypothesis HL : has_literal_types (df_types s).
Variable intr : comp P A Q -> nat -> tkey -> option (reply (tkey * P)).
Variable call_args : comp P A Q -> nat -> tkey -> option ((list A + cerr) * list ask).
Variable map_params : comp P A Q -> nat -> option ((injection Q + cerr) * list ask).
Variable order : Locals.lmap -> Locals.lmap.
Variable shuffle : list nat -> list nat.
Notation comp := (comp P A Q).
Notation cstep := (cstep P A).
Implicit Types c : comp.
Notation inv := (inv P A Q g tg0 intr call_args map_params).
Notation compile := (compile g intr call_args map_params order shuffle).
Notation round := (round g intr call_args map_params order shuffle).

Lemma fresh_full : forall seeds c, fresh P A Q g order tg0 seeds = Good c -> forall x t, node g x = Some (NExpr t) -> children g x <> [].
Proof.
  intros seeds c H. unfold fresh in H. apply obind_good in H. destruct H as (lg & B & _). apply sure_good in B.
  assert (G : LocalsGraphProofs.good g).
  { pose proof HS as H. unfold start in H. destruct (init s e) as [[g0 cs]| |] eqn:E0; cbn [rbind fst snd] in H; try discriminate.
    destruct (init_tg g0 (full (df_types s)) root) as [t0| |]; cbn [rbind] in H; try discriminate.
    destruct (TyGraph.apply_chgs tkey_eqb t0 _ false) as [t1 [b1|?|]]; try discriminate. injection H as <- _. now apply LocalsGraphProofs.init_good in E0. }
  destruct (LocalsBuildProofs.build_spec G B) as (_ & N). exact N.
Qed.
Lemma fresh_inv : forall seeds c, fresh P A Q g order tg0 seeds = Good c -> inv c /\ c_infer c = [] /\ c_depth c = 0 /\ c_ops c = [] /\ c_exprs c = [].
Proof.
  intros seeds c H. unfold fresh in H. apply obind_good in H. destruct H as (lg & _ & H). apply obind_good in H. destruct H as (lg2 & _ & H). injection H as <-.
  split; [|auto]. split; [exists []; split; [constructor|reflexivity]|]. split; [intros o x Z; discriminate|split; [intros o x Z; discriminate|intros d ps Z; discriminate]].
Qed.

(** ** Running *)
Fixpoint size (x : cstep) : nat := match x with Prim _ _ _ => 1 | Call _ _ l => S (list_sum (map size l)) end.
Lemma size_in : forall x l, In x l -> size x <= list_sum (map size l).
Proof. induction l as [|y l IH]; intros I; [destruct I|]. cbn [map list_sum fold_right]. destruct I as [->|I]; [lia|]. specialize (IH I). unfold list_sum in IH. lia. Qed.
Notation runs c := (runs g (answered intr c) (supplied call_args map_params c)).
Notation step_of c := (step_of g (answered intr c) (supplied call_args map_params c)).

Lemma chain_runs : forall c k, inv c -> (forall o t x, size x < k -> has_step c o x -> settles c o TyGraph.In_ t -> step_of c o t (s_out x) x) ->
  forall os ss t v, Forall2 (has_step c) os ss -> (forall x, In x ss -> size x < k) -> chain P A Q c t os v -> runs c os t v ss.
Proof.
  intros c k I IH. induction os as [|o os IHo]; intros ss t v F S C; inversion F; subst.
  - cbn in C. subst v. constructor.
  - cbn in C. destruct C as (SI & u & SO & C). assert (u = s_out y) as ->.
    { destruct (proj1 (proj2 I) o y H1) as (_ & t' & _ & SO' & _). eapply settles_fun; eauto. }
    apply runs_block with (u := s_out y); [apply IH; auto; apply S; now left|]. apply IHo; auto. intros x J. apply S. now right.
Qed.
Lemma steps_run : forall c, inv c -> forall k o t x, size x < k -> has_step c o x -> settles c o TyGraph.In_ t -> step_of c o t (s_out x) x.
Proof.
  intros c I. induction k as [|k IH]; intros o t x S H ST; [lia|].
  destruct (proj1 (proj2 I) o x H) as (_ & t' & SI & SO & cmd & K & W). assert (t' = t) as -> by (eapply settles_fun; eauto).
  apply impl_chosen in K. destruct x as [u p|u args stack]; cbn [s_out].
  - destruct W as ((op & f & N) & AN). eapply step_intrinsic; eauto.
  - destruct W as (y & ps & body & N & CH & SU & ST2 & BI & BO). destruct (proj1 (proj2 (proj2 I)) body stack ST2) as (_ & t2 & v2 & S1 & S2 & C & F).
    assert (t2 = t) as -> by (eapply settles_fun; eauto). assert (v2 = u) as -> by (eapply settles_fun; eauto).
    eapply step_call; eauto. eapply chain_runs with (k := k); eauto. intros x J. apply size_in in J. cbn [size] in S. lia.
Qed.
Lemma exprs_run : forall c, inv c -> forall x stack, has_stack c x stack -> exists t v, settles c x TyGraph.In_ t /\ settles c x TyGraph.Out_ v /\ runs c (children g x) t v stack.
Proof.
  intros c I x stack H. destruct (proj1 (proj2 (proj2 I)) x stack H) as (_ & t & v & S1 & S2 & C & F). exists t, v. split; [auto|]. split; [auto|].
  eapply chain_runs with (k := S (list_sum (map size stack))); eauto.
  - intros o t' y S. eapply steps_run; eauto.
  - intros y J. apply size_in in J. lia.
Qed.

Lemma root_runs : forall fuel seeds c stack, compile_root g intr call_args map_params order shuffle fuel tg0 seeds = Good (c, stack) ->
  has_stack c 0 stack /\ exists v, settles c 0 TyGraph.In_ root /\ settles c 0 TyGraph.Out_ v /\ runs c (children g 0) root v stack.
Proof.
  intros fuel seeds c stack H. unfold compile_root in H. apply obind_good in H. destruct H as (c0 & H0 & H). apply obind_good in H. destruct H as (c1 & H1 & H).
  apply obind_good in H. destruct H as (st & H2 & H). injection H as -> ->. apply expect_good in H2. split; [exact H2|].
  pose proof (fresh_full _ _ H0) as HN. apply fresh_inv in H0. destruct H0 as (I0 & _).
  eapply compile_ok in H1; eauto. destruct H1 as (I1 & _). destruct (exprs_run c I1 0 stack H2) as (t & v & S1 & S2 & R).
  assert (S0 : settles c 0 TyGraph.In_ root).
  { destruct (start_facts s e root anon g tg0 HS HL HN) as (_ & F & _). destruct (hist_keeps P A Q g tg0 c (proj1 I1)) as (_ & K). now apply K. }
  assert (t = root) as -> by (eapply settles_fun; eauto). eauto.
Qed.

(** ** Fuel *)
Section Fuel.
Variables rec rec' : comp -> nat -> out comp.
Hypothesis HR : forall c b, rec c b <> NoFuel -> rec' c b = rec c b.
(** [trial] may run out of fuel. *)
Lemma trial_more : forall c sd brk n t, trial order rec c sd brk n t <> Ran NoFuel -> trial order rec' c sd brk n t = trial order rec c sd brk n t.
Proof.
  intros c sd brk n t H. unfold trial in *. destruct (sure (brk n)); auto. destruct (apply_all order _ _ false) as [[c1 b1]| | |]; auto. cbn [fst] in *.
  rewrite HR; [auto|]. intros E. apply H. now rewrite E.
Qed.
Definition deep (rc : comp -> nat -> out comp) c sd brk n ts := find (too_deep (P := P) (A := A) (Q := Q)) (map (trial order rc c sd brk n) ts).
Definition tr (rc : comp -> nat -> out comp) c sd brk n ts v rm i := Infer.trials tkey_eqb (fun t => outcome_of (trial order rc c sd brk n t)) ts v rm i.
Lemma trials_more : forall c sd brk n ts v rm i,
  (tr rec c sd brk n ts v rm i = Infer.DepthLimit /\ deep rec c sd brk n ts = Some (Ran NoFuel)) \/
  (tr rec' c sd brk n ts v rm i = tr rec c sd brk n ts v rm i /\ (tr rec c sd brk n ts v rm i = Infer.DepthLimit -> deep rec' c sd brk n ts = deep rec c sd brk n ts)).
Proof.
  intros c sd brk n. unfold tr, deep. induction ts as [|t ts IH]; intros v rm i; [right; split; [reflexivity|reflexivity]|].
  cbn [Infer.trials map find]. unfold too_deep at 1 3 5.
  assert (D : trial order rec c sd brk n t = Ran NoFuel \/ trial order rec c sd brk n t <> Ran NoFuel).
  { destruct (trial order rec c sd brk n t) as [|[?|?|?|]]; try (right; discriminate). now left. }
  destruct D as [D|D].
  - rewrite D. cbn [outcome_of]. left. auto.
  - rewrite (trial_more _ _ _ _ _ D). destruct (outcome_of (trial order rec c sd brk n t)) as [|c1| |]; auto.
    destruct i; auto. right. split; [auto|discriminate].
Qed.
Definition vd (rc : comp -> nat -> out comp) c sd brk (types : nat -> list tkey) n := Infer.test_compile_types tkey_eqb (fun t => outcome_of (trial order rc c sd brk n t)) (types n).
Lemma loop_more : forall c sd brk types ns er rm,
  (exists n, Infer.round_loop (vd rec c sd brk types) ns er rm = Infer.DeepError n /\ deep rec c sd brk n (types n) = Some (Ran NoFuel)) \/
  (Infer.round_loop (vd rec' c sd brk types) ns er rm = Infer.round_loop (vd rec c sd brk types) ns er rm /\
   forall n, Infer.round_loop (vd rec c sd brk types) ns er rm = Infer.DeepError n -> deep rec' c sd brk n (types n) = deep rec c sd brk n (types n)).
Proof.
  intros c sd brk types. induction ns as [|n ns IH]; intros er rm.
  - right. split; [reflexivity|]. intros n H. cbn in H. destruct rm; [destruct er as [[? ?]|]|]; discriminate.
  - cbn [Infer.round_loop]. destruct (trials_more c sd brk n (types n) (types n) [] None) as [(E & D)|(E & D)].
    + left. exists n. unfold vd, Infer.test_compile_types. unfold tr in E. rewrite E. auto.
    + unfold tr in *. assert (V : vd rec' c sd brk types n = vd rec c sd brk types n) by exact E. rewrite V.
      destruct (vd rec c sd brk types n) as [c1| |va| |rs] eqn:VE; auto.
      * right. split; [auto|discriminate].
      * right. split; [auto|]. intros m Z. injection Z as <-. apply D. exact VE.
Qed.
Lemma guess_more : forall c sd brk ns, guess order rec c sd brk ns <> NoFuel -> guess order rec' c sd brk ns = guess order rec c sd brk ns.
Proof.
  intros c sd brk ns H. set (types := fun n => match tys_at c n sd with Some ts => ts | None => [] end).
  assert (U : forall rc, guess order rc c sd brk ns = match Infer.round_loop (vd rc c sd brk types) ns None [] with
    | Infer.Adopted c' => Good (c', Yes)
    | Infer.Removals rm => yes_no (apply_all order c (map (fun p => Tg (strike sd (fst p) (snd p))) rm) false)
    | Infer.Failed _ _ => Good (c, Oops err_guess)
    | Infer.DeepError n => match deep rc c sd brk n (types n) with
        | Some (Ran (Bad e)) => Good (c, Oops e) | Some (Ran (Crash w)) => Crash w | Some (Ran NoFuel) => NoFuel | _ => Crash Missing end
    | Infer.Nothing => Good (c, No) end) by reflexivity.
  rewrite U in H. rewrite !U. destruct (loop_more c sd brk types ns None []) as [(n & E & D)|(E & D)].
  - rewrite E, D in H. congruence.
  - rewrite E. destruct (Infer.round_loop (vd rec c sd brk types) ns None []) as [| | |n|]; auto. now rewrite (D n eq_refl).
Qed.
Lemma obind_more : forall X Y (a a' : out X) (f f' : X -> out Y), obind a f <> NoFuel -> (a <> NoFuel -> a' = a) -> (forall x, f x <> NoFuel -> f' x = f x) -> obind a' f' = obind a f.
Proof. intros X Y [x|er|w|] a' f f' H E F; try (rewrite E by discriminate; cbn in *; auto); cbn in *; congruence. Qed.
Lemma outputs_more : forall c, infer_outputs g order rec c <> NoFuel -> infer_outputs g order rec' c = infer_outputs g order rec c.
Proof. intros c H. unfold infer_outputs in *. destruct (c_depth c <? 5); [|auto]. now apply guess_more. Qed.
Lemma inputs_more : forall c, infer_inputs_expr g order shuffle rec c <> NoFuel -> infer_inputs_expr g order shuffle rec' c = infer_inputs_expr g order shuffle rec c.
Proof. intros c H. unfold infer_inputs_expr in *. destruct (c_depth c <? 5); [|auto]. eapply obind_more; [exact H|auto|]. intros x. apply guess_more. Qed.
Lemma guesses_more : forall c er, guesses g intr call_args order shuffle rec c er <> NoFuel ->
  guesses g intr call_args order shuffle rec' c er = guesses g intr call_args order shuffle rec c er.
Proof.
  intros c er H. unfold guesses in *. eapply obind_more; [exact H|auto|]. clear c H. intros [c a] H. destruct a as [| |e1]; auto.
  all: eapply obind_more; [exact H|apply outputs_more|]; clear c H; intros [c a] H; destruct a as [| |e2]; auto; cbv zeta in *.
  all: try (destruct (er_hard e2); auto). all: eapply obind_more; [exact H|apply inputs_more|auto].
Qed.
Lemma round_more : forall c, round rec c <> NoFuel -> round rec' c = round rec c.
Proof.
  intros c H. unfold Compile.round in *. eapply obind_more; [exact H|auto|]. clear c H. intros c H. destruct (populate g c) as [c1 [|]]; auto.
  eapply obind_more; [exact H|auto|]. intros [c2 b2] H2. cbn [fst snd] in *. destruct b2; auto.
  eapply obind_more; [exact H2|auto|]. intros [c3 b3] H3. cbn [fst snd] in *. destruct b3; auto.
  eapply obind_more; [exact H3|auto|]. intros [c4 b4] H4. cbn [fst snd] in *. destruct b4; auto.
  eapply obind_more; [exact H4|auto|]. intros [c5 [e5|]] H5; cbn [fst snd] in *; auto. destruct (er_hard e5); auto. now apply guesses_more.
Qed.
End Fuel.
Lemma compile_more : forall f f' c b, f <= f' -> compile f c b <> NoFuel -> compile f' c b = compile f c b.
Proof.
  induction f as [|f IH]; intros f' c b L H; [cbn in H; congruence|]. destruct f' as [|f']; [lia|]. cbn [Compile.compile] in *.
  destruct (_ || _); auto. eapply obind_more; [exact H| |].
  - apply round_more. intros c1 b1. apply IH. lia.
  - intros c1. apply IH. lia.
Qed.
Lemma root_more : forall f f' seeds, f <= f' -> compile_root g intr call_args map_params order shuffle f tg0 seeds <> NoFuel ->
  compile_root g intr call_args map_params order shuffle f' tg0 seeds = compile_root g intr call_args map_params order shuffle f tg0 seeds.
Proof.
  intros f f' seeds L H. unfold compile_root in *. eapply obind_more; [exact H|auto|]. intros c0 H0. eapply obind_more; [exact H0|now apply compile_more|auto].
Qed.
End Runs.
