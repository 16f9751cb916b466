(** C31: a guessed type is the only one that compiles. *)
From Coq Require Import List Bool Arith Permutation.
From Verif Require Import Model.Infer Spec.InferSpec Proofs.InferProofs.
Import ListNotations.

(** A type is chosen exactly when it is the only candidate that compiles, and no trial hit the depth limit. *)
Theorem C31_chosen : forall T C (eqb : T -> T -> bool) (f : T -> outcome C) types c, NoDup types ->
  test_compile_types eqb f types = Chosen c <-> exists t, only_fit f types t c.
Proof. exact chosen_iff. Qed.
Print Assumptions C31_chosen.

(** The choice does not depend on the order in which the set is walked. *)
Theorem C31_any_order : forall T C (eqb : T -> T -> bool) (f : T -> outcome C) a b c, NoDup a -> Permutation a b ->
  test_compile_types eqb f a = Chosen c -> test_compile_types eqb f b = Chosen c.
Proof. exact chosen_perm. Qed.
Print Assumptions C31_any_order.

(** When nothing compiles no type is chosen: the candidates the type graph refused are dropped, and if there were none it
    is an error. *)
Theorem C31_none : forall T C (eqb : T -> T -> bool) (f : T -> outcome C) types,
  (forall u, In u types -> f u = Unfit \/ f u = Fails) ->
  test_compile_types eqb f types =
  match filter (fun t => match f t with Unfit => true | _ => false end) types with [] => NoTypes | l => Reduce l end.
Proof. exact none_fit. Qed.
Print Assumptions C31_none.

(** When several compile the error names each of them. *)
Theorem C31_several : forall T C (eqb : T -> T -> bool) (f : T -> outcome C) types, NoDup types ->
  (exists t u, t <> u /\ In t types /\ In u types /\ compiles f t /\ compiles f u) ->
  (forall u, In u types -> f u <> TooDeep) -> (forall a b, eqb a b = true <-> a = b) ->
  exists w, test_compile_types eqb f types = Ambiguous w /\ forall t, In t types -> compiles f t -> In t w.
Proof. exact several_fit. Qed.
Print Assumptions C31_several.

(** A trial that hits the depth limit always ends in an error. *)
Theorem C31_deep : forall T C (eqb : T -> T -> bool) (f : T -> outcome C) types, (exists t, In t types /\ f t = TooDeep) ->
  test_compile_types eqb f types = DepthLimit \/ exists w, test_compile_types eqb f types = Ambiguous w.
Proof. exact some_deep. Qed.
Print Assumptions C31_deep.

(** Striking off candidates of one op keeps each that compiled, needs its output guessed, or waits for a variable. *)
Theorem C31_struck : forall T (f : T -> report) set t,
  In t (trial_inferred_types f set) <->
  In t set /\ compiled (f t) = false /\ infer_output (f t) = false /\ lg_chg_req (f t) = false.
Proof. exact trial_struck. Qed.
Print Assumptions C31_struck.

(** A round over several nodes takes over only what the trials of one node chose, and no earlier node had a choice or a
    depth error. *)
Theorem C31_round : forall N T C (g : N -> verdict T C) nodes err rm c, round_loop g nodes err rm = Adopted c ->
  exists l n r, nodes = l ++ n :: r /\ g n = Chosen c /\ forall m, In m l -> (forall c', g m <> Chosen c') /\ g m <> DepthLimit.
Proof. exact round_adopted. Qed.
Print Assumptions C31_round.

(** If no node chose anything: candidates to drop come before errors, and the last error is reported. *)
Theorem C31_round_none : forall N T C (g : N -> verdict T C) nodes err rm,
  (forall n, In n nodes -> (forall c, g n <> Chosen c) /\ g n <> DepthLimit) ->
  round_loop g nodes err rm =
  match rm ++ concat (map (fun n => match g n with Reduce ts => map (pair n) ts | _ => [] end) nodes),
        fold_left (fun e n => match g n with Reduce _ => e | v => Some (n, v) end) nodes err with
  | (_ :: _) as l, _ => Removals l
  | [], Some (n, v) => Failed n v
  | [], None => Nothing
  end.
Proof. exact round_calm. Qed.
Print Assumptions C31_round_none.

(** Candidates 0..5: which of them compile. *)
Definition fits (n : nat) : outcome nat :=
  match n with 0 => Unfit | 1 => Fails | 2 => Compiles 20 | 3 => Compiles 30 | 4 => TooDeep | _ => Fails end.

Example C31_example :
  test_compile_types Nat.eqb fits [0; 1; 2; 5] = Chosen 20 /\ test_compile_types Nat.eqb fits [5; 2; 0; 1] = Chosen 20 /\
  test_compile_types Nat.eqb fits [0; 1; 5] = Reduce [0] /\ test_compile_types Nat.eqb fits [1; 5] = NoTypes /\
  test_compile_types Nat.eqb fits [1; 2; 0; 3] = Ambiguous [2; 0; 3] /\ test_compile_types Nat.eqb fits [2; 4] = DepthLimit /\
  infer_round (fun n => test_compile_types Nat.eqb fits [n; 1]) 4 [5; 0; 2; 3] = Some (Adopted 20) /\
  infer_round (fun n => test_compile_types Nat.eqb fits [n; 1]) 4 [5; 0] = Some (Removals [(0, 0)]) /\
  infer_round (fun n => test_compile_types Nat.eqb fits [n; 1]) 5 [5; 2] = None.
Proof. vm_compute. auto 10. Qed.

Example C31_example_fit : only_fit fits [0; 1; 2; 5] 2 20.
Proof.
  unfold only_fit. cbn. split; [auto|]. split; [reflexivity|].
  intros u [<-|[<-|[<-|[<-|[]]]]] H; auto; congruence.
Qed.

(** Finding: which error is reported can depend on the order, when one candidate is too deep and two others compile. *)
Theorem C31_error_order_refuted : exists (f : nat -> outcome nat) a b, NoDup a /\ Permutation a b /\
  test_compile_types Nat.eqb f a = DepthLimit /\ exists w, test_compile_types Nat.eqb f b = Ambiguous w.
Proof.
  exists fits, [4; 2; 3], [2; 3; 4]. repeat split.
  - repeat constructor; cbn; intuition discriminate.
  - apply (Permutation_app_comm [4] [2; 3]).
  - exists [2; 3; 4]. reflexivity.
Qed.
Print Assumptions C31_error_order_refuted.

(** Finding: the nodes are walked in hash order and the walk stops at the first success, so with several nodes to guess
    the outcome may depend on the order: a node with a depth error before the success ends the compilation. *)
Theorem C31_node_order_refuted : exists (g : nat -> verdict nat nat) a b, NoDup a /\ Permutation a b /\
  round_loop g a None [] = DeepError 4 /\ round_loop g b None [] = Adopted 20.
Proof.
  exists (fun n => test_compile_types Nat.eqb fits [n; 1]), [4; 2], [2; 4]. repeat split.
  - repeat constructor; cbn; intuition discriminate.
  - apply perm_swap.
Qed.
Print Assumptions C31_node_order_refuted.
