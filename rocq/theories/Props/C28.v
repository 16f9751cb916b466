(** C28: a known or obliged type is never revised. *)
From Coq Require Import List Bool Arith.
From Verif Require Import Model.Base Model.TyGraph Spec.TyGraphSpec Proofs.TyGraphProofs.
Import ListNotations.

(** Through any history of inference steps, errors included. *)
Theorem C28_stable : forall T (eqb : T -> T -> bool), (forall a b, eqb a b = true <-> a = b) ->
  forall xs s p t, settled (fst s) p t -> settled (fst (history eqb s xs)) p t.
Proof. exact history_settled. Qed.
Print Assumptions C28_stable.

(** The same for a whole compilation: changes, links and resolutions. *)
Theorem C28_compile : forall T (eqb : T -> T -> bool), (forall a b, eqb a b = true <-> a = b) ->
  forall xs s p t, settled (fst s) p t -> settled (fst (fst (compile_history eqb s xs))) p t.
Proof. intros T eqb E xs s p t. apply (compile_keeps T eqb E xs s). Qed.
Print Assumptions C28_compile.

(** A change that claims another type for a settled side is refused and leaves the graph as it was. *)
Theorem C28_conflict : forall T (eqb : T -> T -> bool), (forall a b, eqb a b = true <-> a = b) ->
  forall g c p t u, claims c = Some (p, u) -> settled g p t -> t <> u ->
  fst (apply_chg eqb g c) = g /\ forall b, snd (apply_chg eqb g c) <> Ok b.
Proof. exact claim_conflict. Qed.
Print Assumptions C28_conflict.

(** An accepted claim is in force. *)
Theorem C28_accepted : forall T (eqb : T -> T -> bool), (forall a b, eqb a b = true <-> a = b) ->
  forall g c p u g' b, claims c = Some (p, u) -> kn_at g p <> None -> apply_chg eqb g c = (g', Ok b) -> settled g' p u.
Proof. exact claim_accepted. Qed.
Print Assumptions C28_accepted.

Definition n (i o : kn nat) : node nat := {| input := i; output := o |}.
Definition e (a b : nat) (f : flow) : edge := {| e_from := a; e_to := b; e_flow := f |}.
(** `\ 3 | + 1` : expression, two ops, a literal. *)
Definition sample : tgraph nat :=
  {| nodes := [n (Known 0) (Inferred [0; 1; 2; 3]); n (Inferred [0; 1; 2; 3]) (Inferred [0; 1; 2; 3]);
               n (Inferred [1; 2]) (Inferred [0; 1; 2; 3]); n Any (Known 1)];
     edges := [e 0 1 II; e 1 2 OI; e 2 0 OO]; anon_tys := [] |}.
Definition steps : list (step nat) :=
  [SIntersect _; SUpgrade _; SFlow _; SChanges [KnownOutput 1 1; AnonTy 9; KnownOutput 2 2]; SFlow _; SChanges [RemoveInput 0 0; ObligeInput 0 5]].

Example C28_example :
  settled sample (0, In_) 0 /\ kn_at (fst (history Nat.eqb (sample, []) steps)) (0, In_) = Some (Known 0) /\
  kn_at (fst (history Nat.eqb (sample, []) steps)) (2, In_) = Some (Known 1) /\
  kn_at (fst (history Nat.eqb (sample, []) steps)) (0, Out_) = Some (Known 2) /\
  snd (apply_chg Nat.eqb sample (KnownInput 0 5)) = Err 1 /\ snd (apply_chg Nat.eqb sample (KnownOutput 3 1)) = Ok false.
Proof. vm_compute. auto 10. Qed.

(** Finding: an obligation against a known type is not an error but hits `todo!`. *)
Theorem C28_obliged_panic_refuted : exists (g : tgraph nat) c p t u, claims c = Some (p, u) /\ settled g p t /\ t <> u /\
  snd (apply_chg Nat.eqb g c) = Panic.
Proof. exists sample, (ObligeInput 0 5), (0, In_), 0, 5. repeat split; auto. left. reflexivity. Qed.
Print Assumptions C28_obliged_panic_refuted.

(** Finding: a side with a single open type has a type as far as `Knowledge::ty` goes, but is not settled: a new anonymous
    type opens it again. *)
Theorem C28_single_refuted : exists (g : tgraph nat) c k k', kn_at g (0, In_) = Some k /\ kn_ty k = Some 3 /\
  kn_at (fst (apply_chg Nat.eqb g c)) (0, In_) = Some k' /\ kn_ty k' = None.
Proof.
  exists {| nodes := [n (Inferred [3]) Any]; edges := []; anon_tys := [] |}, (AnonTy 9), (Inferred [3]), (Inferred [9; 3]).
  repeat split.
Qed.
Print Assumptions C28_single_refuted.
