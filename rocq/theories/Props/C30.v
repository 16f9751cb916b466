(** C30: a type flows along an edge only if it fits. *)
From Coq Require Import List Bool Arith.
From Verif Require Import Model.Base Model.TyGraph Spec.TyGraphSpec Proofs.TyGraphProofs Proofs.ResolveProofs.
Import ListNotations.

(** What may flow into what. *)
Theorem C30_flow : forall T (eqb : T -> T -> bool), (forall a b, eqb a b = true <-> a = b) -> forall a b,
  can_flow eqb a b = Ok tt <->
  (exists t, (a = Known t \/ a = Obliged t) /\ allows b t) \/ b = Any \/ (a = Any /\ exists ts, b = Inferred ts) \/
  (exists x y, a = Inferred x /\ b = Inferred y /\ length x = length y /\ incl x y).
Proof. exact flow_iff. Qed.
Print Assumptions C30_flow.

(** What flows leaves nothing open that was ruled out before, unless it is the knowledge "any". *)
Theorem C30_consistent : forall T (eqb : T -> T -> bool), (forall a b, eqb a b = true <-> a = b) -> forall a b,
  can_flow eqb a b = Ok tt -> a <> Any -> forall t, allows a t -> allows b t.
Proof. exact can_flow_narrower. Qed.
Print Assumptions C30_consistent.

(** Two different settled types on the ends of an edge make resolution fail. *)
Theorem C30_clash : forall T (eqb : T -> T -> bool), (forall a b, eqb a b = true <-> a = b) ->
  forall fuel s s' r i e t u, resolve_tg eqb fuel s = Some (s', r) ->
  nth_error (edges (fst s)) i = Some e -> ~ In i (snd s) ->
  settled (fst s) (fst (feeds e)) t -> settled (fst s) (snd (feeds e)) u -> t <> u -> r <> Ok tt.
Proof. exact resolve_clash. Qed.
Print Assumptions C30_clash.

(** After a compilation without error, from any graph and through any changes, the two ends of every edge that are settled
    are settled on one type.  Edges from input to input are included if no input takes "any". *)
Theorem C30_agree : forall T (eqb : T -> T -> bool), (forall a b, eqb a b = true <-> a = b) ->
  forall strict xs g s, (strict = true -> no_any g /\ Forall (@narrowing_c T) xs) ->
  compile_history eqb (g, []) (xs ++ [CResolve T]) = (s, Ok tt) ->
  forall e t u, In e (edges (fst s)) -> strict = true \/ e_flow e <> II ->
    settled (fst s) (fst (feeds e)) t -> settled (fst s) (snd (feeds e)) u -> t = u.
Proof. exact no_clash. Qed.
Print Assumptions C30_agree.

(** Without "any" and new anonymous types, what is left open only shrinks: no step of a compilation makes up a type. *)
Theorem C30_narrow : forall T (eqb : T -> T -> bool), (forall a b, eqb a b = true <-> a = b) ->
  forall xs g, no_any g -> Forall (@narrowing_c T) xs ->
  forall p k', kn_at (fst (fst (compile_history eqb (g, []) xs))) p = Some k' ->
  exists k, kn_at g p = Some k /\ forall t, allows k' t -> allows k t.
Proof. exact narrow_all. Qed.
Print Assumptions C30_narrow.

(** Meeting two open sets keeps exactly the types in both. *)
Theorem C30_meet : forall T (eqb : T -> T -> bool), (forall a b, eqb a b = true <-> a = b) -> forall a b t,
  In t (intersection eqb a b) <-> In t a /\ In t b.
Proof.
  intros T eqb E a b t. split. apply (intersection_both T eqb E). intros [A B]. apply (intersection_keeps T eqb E); auto.
Qed.
Print Assumptions C30_meet.

(** The combinations no arm of `can_flow` covers. *)
Theorem C30_unhandled : forall T (eqb : T -> T -> bool), (forall a b, eqb a b = true <-> a = b) -> forall a b,
  can_flow eqb a b = Panic <->
  (exists t u, a = Obliged t /\ b = Known u /\ t <> u) \/
  (a = Any /\ exists t, b = Known t \/ b = Obliged t) \/
  (exists ts t, a = Inferred ts /\ (b = Known t \/ b = Obliged t) /\ ~ In t ts) \/
  (exists x y t, a = Inferred x /\ b = Inferred y /\ In t x /\ In t y /\ ~ (length x = length y /\ incl x y)).
Proof. exact flow_unhandled. Qed.
Print Assumptions C30_unhandled.

Definition n (i o : kn nat) : node nat := {| input := i; output := o |}.
Definition e (a b : nat) (f : flow) : edge := {| e_from := a; e_to := b; e_flow := f |}.
Definition sample (last : kn nat) : tgraph nat :=
  {| nodes := [n (Known 0) (Inferred [0; 1; 2]); n (Inferred [0; 1; 2]) (Inferred [0; 1; 2]); n last (Inferred [1; 2; 3])];
     edges := [e 0 1 II; e 1 2 OI; e 2 0 OO]; anon_tys := [] |}.
Definition good : list (cstep nat) := [CResolve _; CChanges [KnownOutput 1 1]; CResolve _; CChanges [KnownOutput 2 2]].

Example C30_example :
  no_any (sample (Inferred [1; 2])) /\ Forall (@narrowing_c nat) good /\
  (let '(s, r) := compile_history Nat.eqb (sample (Inferred [1; 2]), []) (good ++ [CResolve _]) in
   r = Ok tt /\ kn_at (fst s) (2, In_) = Some (Known 1) /\ kn_at (fst s) (0, Out_) = Some (Known 2)) /\
  snd (compile_history Nat.eqb (sample (Known 2), []) (good ++ [CResolve _])) = Err 1 /\
  snd (compile_history Nat.eqb (sample (Inferred [2; 3]), []) (good ++ [CResolve _])) = Err 2.
Proof.
  split.
  - intros [[|[|[|i]]] []] H; try discriminate; unfold kn_at in H; cbn in H; destruct i; discriminate.
  - split; [repeat constructor|]. vm_compute. repeat split.
Qed.

(** Finding: an edge that carried "any" counts as done.  Types learned later on its two ends are never compared. *)
Theorem C30_any_refuted : exists (g : tgraph nat) xs s e t u,
  compile_history Nat.eqb (g, []) (xs ++ [CResolve _]) = (s, Ok tt) /\ In e (edges (fst s)) /\
  settled (fst s) (fst (feeds e)) t /\ settled (fst s) (snd (feeds e)) u /\ t <> u.
Proof.
  exists {| nodes := [n Any (Known 0); n (Inferred [1; 2]) (Known 0)]; edges := [e 0 1 II]; anon_tys := [] |},
    [CResolve _; CChanges [KnownInput 0 1; KnownInput 1 2]].
  eexists. exists (e 0 1 II), 1, 2. split; [vm_compute; reflexivity|]. cbn. repeat split; auto; unfold settled; cbn; auto.
Qed.
Print Assumptions C30_any_refuted.

(** Finding: "any" flowing into an open set forgets what the set had ruled out. *)
Theorem C30_widen_refuted : exists (g : tgraph nat) s k k', resolve_tg Nat.eqb 3 (g, []) = Some (s, Ok tt) /\
  kn_at g (1, In_) = Some k /\ kn_at (fst s) (1, In_) = Some k' /\ ~ allows k 9 /\ allows k' 9.
Proof.
  exists {| nodes := [n Any (Known 0); n (Inferred [1; 2]) (Known 0)]; edges := [e 0 1 II]; anon_tys := [] |}.
  eexists. exists (Inferred [1; 2]), Any. split; [vm_compute; reflexivity|]. cbn. repeat split; auto. intuition discriminate.
Qed.
Print Assumptions C30_widen_refuted.

(** Finding: two open sets without a common type are not an error: both sides end up with no type at all. *)
Theorem C30_empty_refuted : exists (g : tgraph nat) s, resolve_tg Nat.eqb 3 (g, []) = Some (s, Ok tt) /\
  kn_at (fst s) (0, Out_) = Some (Inferred []) /\ kn_at (fst s) (1, In_) = Some (Inferred []).
Proof.
  exists {| nodes := [n (Known 0) (Inferred [1; 2]); n (Inferred [3; 4]) (Known 0)]; edges := [e 0 1 OI]; anon_tys := [] |}.
  eexists. split; [vm_compute; reflexivity|]. auto.
Qed.
Print Assumptions C30_empty_refuted.

(** Finding: the meeting is one way: a receiving side with more open types than its source keeps them. *)
Theorem C30_one_way_refuted : exists (g : tgraph nat) s, resolve_tg Nat.eqb 3 (g, []) = Some (s, Ok tt) /\
  kn_at (fst s) (0, Out_) = Some (Inferred [1; 2]) /\ kn_at (fst s) (1, In_) = Some (Inferred [1; 2; 3]).
Proof.
  exists {| nodes := [n (Known 0) (Inferred [1; 2]); n (Inferred [1; 2; 3]) (Known 0)]; edges := [e 0 1 OI]; anon_tys := [] |}.
  eexists. split; [vm_compute; reflexivity|]. auto.
Qed.
Print Assumptions C30_one_way_refuted.
