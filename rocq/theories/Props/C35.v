(** C35: a definition uses only ops that exist, so fresh names make no cycle; expansion always ends. *)
From Coq Require Import String List NArith ZArith Bool Arith Lia.
From Verif Require Import Model.Base Model.Value Model.Ast Model.Registry Model.AstGraph Spec.RegistrySpec Spec.AstGraphSpec
  Proofs.RegistrySamples Proofs.AcyclicProofs Proofs.AstGraphProofs.
Import ListNotations.

Theorem C35_check : forall m d, assert_all_ops_defined m d = Ok tt <->
  pathless (d_expr d) /\ forall x, occurs x (d_expr d) -> contains_op m x = true.
Proof. exact check_spec. Qed.
Print Assumptions C35_check.

Theorem C35_accepted : forall s d s', process false s (CDef d) = (Ok tt, s') ->
  pathless (d_expr d) /\ forall x, occurs x (d_expr d) -> contains_op (df_impls s) x = true.
Proof. exact accepted_only. Qed.
Print Assumptions C35_accepted.

(** In a history where each accepted definition has a name that no op had before, calls never form a cycle. *)
Theorem C35_acyclic : forall cs s (used : str -> Prop), wf_impls (df_impls s) -> acyclic (df_impls s) ->
  (forall a b, calls (df_impls s) a b -> used b) -> (forall a, contains_op (df_impls s) a = true -> used a) ->
  fresh_names s used cs -> acyclic (df_impls (snd (run false s cs))).
Proof. exact acyclic_history. Qed.
Print Assumptions C35_acyclic.

(** Calls that nest less deep than the limit are not taken for an endless loop. *)
Theorem C35_expands : forall s e rank, (forall a b, calls (df_impls s) a b -> rank b < rank a) ->
  (forall x, occurs x e -> rank x < LOOPLIM) -> init s e <> Err 8.
Proof. exact init_terminates. Qed.
Print Assumptions C35_expands.

(** The model of [init] never stops for lack of fuel, whatever the definitions. *)
Theorem C35_ends : forall s e, init s e <> Err no_fuel.
Proof. exact init_fuel. Qed.
Print Assumptions C35_ends.

(** A cycle through implementations for any type is reported. *)
Theorem C35_cycle : forall s e (X : str -> Prop) x, wf_impls (df_impls s) ->
  (forall x, X x -> exists d y, at_key (df_impls s) x None = Some (IDef d) /\ occurs y (d_expr d) /\ X y) ->
  X x -> occurs x e -> forall r, init s e <> Ok r.
Proof. exact init_cyclic. Qed.
Print Assumptions C35_cycle.

(** So are calls that nest too deep. *)
Theorem C35_deep : forall s e x, wf_impls (df_impls s) -> deep (df_impls s) (S LOOPLIM) x -> occurs x e -> forall r, init s e <> Ok r.
Proof. exact init_too_deep. Qed.
Print Assumptions C35_deep.

Definition one := df LShell "one" None [] [blk "\" [num 1]].
Definition two := df LShell "two" None [] [blk "get" [sub [blk "one" []]]; blk "=" [num 2]].
Definition bad := df LShell "three" None [] [blk "two" []; blk "four" []].
Definition two' := df LShell "two" None [] [blk "one" []].
Definition again := df LShell "one" None [] [blk "two" []].
Definition history := [CDef one; CDef two; CDef bad].

Example C35_example :
  wf_impls (df_impls sample) /\ acyclic (df_impls sample) /\
  fresh_names sample (fun op => contains_op (df_impls sample) op = true) history /\
  fst (run false sample history) = [Ok tt; Ok tt; Err 6] /\
  (exists g cs, init (snd (run false sample history)) (ex [blk "two" []]) = Ok (g, cs) /\ length (g_nodes g) = 21).
Proof.
  split; [apply sample_built_in|]. split.
  - exists (fun x => if str_eqb x (lit "=") then 1 else 0). intros a b (d & (k & I & D) & O). cbn in I.
    destruct I as [I|[I|[I|[I|[]]]]]; injection I as <- <-; cbn in D; destruct D as [D|(t & D)]; try discriminate; try (destruct D as [D|[D|[]]]; discriminate);
      try (destruct D; fail).
    injection D as <-. inversion O as [e0 b0 t Ib E Et|e0 b0 e' Ib It O']; subst.
    + cbn in Ib. destruct Ib as [<-|[]]. cbn in E. injection E as <-. cbn. lia.
    + cbn in Ib. destruct Ib as [<-|[]]. cbn in It. destruct It as [It|[]]. discriminate.
  - split; [|split; [vm_compute; reflexivity|do 2 eexists; vm_compute; split; reflexivity]].
    vm_compute. repeat split; intros; intuition discriminate.
Qed.

(** Redefinition can make a cycle; it is reported.  A definition for a type that calls itself is cut instead. *)
Definition self := df LShell "foo" (Some "Num"%string) [] [blk "=" [num 1]; blk "foo" []].
Example C35_example_cycle :
  (let s := snd (run false sample [CDef one; CDef two'; CDef again]) in
   (forall r, init s (ex [blk "one" []]) <> Ok r) /\ ~ acyclic (df_impls s)) /\
  (let r := run false sample [CDef (df LShell "foo" None [] [blk "\" [num 1]]); CDef self] in
   fst r = [Ok tt; Ok tt] /\ ~ acyclic (df_impls (snd r)) /\ exists g cs, init (snd r) (ex [blk "foo" []]) = Ok (g, cs)).
Proof.
  assert (C : forall s a b d k, In (a, k) (df_impls s) -> (k_any k = Some (IDef d) \/ exists t, In (t, IDef d) (k_tys k)) ->
    occurs b (d_expr d) -> calls (df_impls s) a b).
  { intros s a b d k I K O. exists d. split; [|auto]. exists k. auto. }
  split; [split|split; [vm_compute; reflexivity|split]].
  - apply init_cyclic with (X := fun x => x = lit "one" \/ x = lit "two") (x := lit "one"); [apply wf_run, sample_built_in| |now left|].
    + intros x [->| ->]; [exists again, (lit "two")|exists two', (lit "one")].
      * split; [vm_compute; reflexivity|]. split; [|now right]. apply (@occurs_here _ _ (blk "two" []) (tg "two")); [now left|reflexivity|reflexivity].
      * split; [vm_compute; reflexivity|]. split; [|now left]. apply (@occurs_here _ _ (blk "one" []) (tg "one")); [now left|reflexivity|reflexivity].
    + apply (@occurs_here _ _ (blk "one" []) (tg "one")); [now left|reflexivity|reflexivity].
  - intros (rank & R).
    assert (A : rank (lit "two") < rank (lit "one")).
    { apply R. eapply C with (d := again); [vm_compute; do 4 right; left; reflexivity|left; reflexivity|].
      apply (@occurs_here _ _ (blk "two" []) (tg "two")); [now left|reflexivity|reflexivity]. }
    assert (B : rank (lit "one") < rank (lit "two")).
    { apply R. eapply C with (d := two'); [vm_compute; do 5 right; left; reflexivity|left; reflexivity|].
      apply (@occurs_here _ _ (blk "one" []) (tg "one")); [now left|reflexivity|reflexivity]. }
    lia.
  - intros (rank & R). assert (A : rank (lit "foo") < rank (lit "foo")); [|lia].
    apply R. eapply C with (d := self); [vm_compute; do 4 right; left; reflexivity|right; eexists; left; reflexivity|].
    apply (@occurs_here _ _ (blk "foo" []) (tg "foo")); [right; now left|reflexivity|reflexivity].
  - do 2 eexists. vm_compute. reflexivity.
Qed.

(** Definitions that nest deeper than 128 are reported as an endless loop although no op calls itself. *)
Definition level (n : nat) : string := String (Ascii.ascii_of_nat (n + 100)) EmptyString.
Fixpoint chain (n : nat) : list cmd :=
  match n with
  | 0 => [CDef (df LShell (level 0) None [] [blk "\" [num 1]])]
  | S m => chain m ++ [CDef (df LShell (level n) None [] [blk (level m) []])]
  end.
Definition depth (s : str) : nat :=
  match s with [c] => if N.ltb c 100 then 0 else S (N.to_nat (c - 100)) | _ => 0 end.
Theorem C35_deep_refuted : exists cs e, let s := snd (run false sample cs) in
  (forall r, In r (fst (run false sample cs)) -> r = Ok tt) /\ acyclic (df_impls s) /\ forall r, init s e <> Ok r.
Proof.
  exists (chain 129), (ex [blk (level 129) []]). split; [|split].
  - assert (E : fst (run false sample (chain 129)) = repeat (Ok tt) 130) by (vm_compute; reflexivity).
    intros x I. rewrite E in I. now apply repeat_spec in I.
  - exists (fun x => if str_eqb x (lit "=") then 1 else depth x). apply rank_check_sound. vm_compute. reflexivity.
  - apply init_too_deep with (x := lit (level 129)); [apply wf_run, sample_built_in| |].
    + assert (L : forall m, map (fun n => at_key m (lit (level (S n))) None) (seq 0 129) =
                             map (fun n => Some (IDef (df LShell (level (S n)) None [] [blk (level n) []]))) (seq 0 129) ->
                forall n, n <= 129 -> deep m n (lit (level n))).
      { intros m E. induction n as [|n IH]; intros H; [constructor|]. apply deep_S with (d := df LShell (level (S n)) None [] [blk (level n) []]) (y := lit (level n)).
        - apply (f_equal (fun l => nth_error l n)) in E. rewrite !nth_error_map in E.
          assert (X : nth_error (seq 0 129) n = Some n). { rewrite (nth_error_nth' _ 0) by (rewrite seq_length; lia). f_equal. apply seq_nth. lia. }
          rewrite X in E. cbn [option_map] in E. now injection E.
        - apply (@occurs_here _ _ (blk (level n) []) (tg (level n))); [now left|reflexivity|reflexivity].
        - apply IH. lia. }
      apply L; [|apply le_n]. vm_compute. reflexivity.
    + apply (@occurs_here _ _ (blk (level 129) []) (tg (level 129))); [now left|reflexivity|reflexivity].
Qed.
Print Assumptions C35_deep_refuted.

(** A type named [Number] is taken for [Num] by the detection of recursion: an op that calls another implementation of the
    same op is not expanded, although no implementation calls itself. *)
Definition number := PType LShell (lit "Number") (PProduct [PField (lit "x") (lit "Num") []]).
Definition on_num := df LShell "foo" (Some "Num"%string) [] [blk "\" [num 1]].
Definition on_number := df LShell "foo" (Some "Number"%string) [] [blk "get" [TArg (AIdent (tg "x"))]; blk "foo" []].
Theorem C35_name_refuted : exists cs e g cs' o t, let s := snd (run false sample cs) in
  fst (run false sample cs) = [Ok tt; Ok tt; Ok tt] /\ init s e = Ok (g, cs') /\ node g o = Some (NOp t) /\
  get_impl (df_impls s) (tg_str t) TNum = Some (IDef on_num) /\ graph_impl g o TNum = None /\
  ~ occurs (tg_str t) (d_expr on_num).
Proof.
  exists [CDefTy number; CDef on_num; CDef on_number], (ex [blk "foo" []]). do 2 eexists. exists 10, (tg "foo"). split; [vm_compute; reflexivity|].
  split; [vm_compute; reflexivity|]. split; [vm_compute; reflexivity|]. split; [vm_compute; reflexivity|]. split; [vm_compute; reflexivity|].
  intros O. inversion O as [e0 b t Ib E Et|e0 b e' Ib It O']; subst; cbn in Ib; destruct Ib as [<-|[]].
  - cbn in E. injection E as <-. discriminate.
  - cbn in It. destruct It as [It|[]]. discriminate.
Qed.
Print Assumptions C35_name_refuted.
