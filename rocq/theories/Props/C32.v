(** C32: variables are scoped lexically.  [order] is the order in which a hash map is iterated, any at all. *)
From Coq Require Import String List NArith ZArith Bool Arith Lia Permutation.
From Verif Require Import Model.Base Model.Value Model.Ast Model.Registry Model.AstGraph Model.Locals Spec.RegistrySpec Spec.AstGraphSpec Spec.LocalsSpec
  Proofs.RegistrySamples Proofs.LocalsTop.
Import ListNotations.

(** The graph is built unless some expression has no block. *)
Theorem C32_build : forall s e g cs, init s e = Ok (g, cs) ->
  ((exists lg, build g = Ok lg) <-> forall n t, node g n = Some (NExpr t) -> children g n <> []).
Proof. exact build_iff. Qed.
Print Assumptions C32_build.

(** Whatever variables are added, wherever, and whatever is sealed, asking always gets an answer. *)
Theorem C32_total : forall s e g cs0 order vs cs lg0, init s e = Ok (g, cs0) -> (forall m, Permutation (order m) m) -> Forall (in_graph g) cs ->
  build g = Ok lg0 -> exists lg, locals_of order g vs cs = Ok lg /\
    forall n x, n < length (g_nodes g) -> exists b o, sealed lg n = Ok b /\ get_ lg n x = Ok o /\ get_opt lg n x = Ok (b, if b then o else None).
Proof. exact total. Qed.
Print Assumptions C32_total.

(** An answer is given as final exactly when nothing more will be introduced at what comes before; until then there is none. *)
Theorem C32_final : forall s e g cs0 order vs cs lg n x, init s e = Ok (g, cs0) -> (forall m, Permutation (order m) m) -> Forall (in_graph g) cs ->
  locals_of order g vs cs = Ok lg -> n < length (g_nodes g) ->
  exists b o, get_opt lg n x = Ok (b, o) /\ (b = true <-> forall m, awaits g cs n m -> finished g cs m) /\
  (forall l, o = Some l <-> b = true /\ exists d, visible g (history vs cs) x n d l) /\
  get lg n x = match o with Some l => Ok l | None => if b then Err 2 else Err 1 end.
Proof. exact final. Qed.
Print Assumptions C32_final.

(** The answer is the closest binding. *)
Theorem C32_scope : forall s e g cs0 order vs cs lg n x o, init s e = Ok (g, cs0) -> (forall m, Permutation (order m) m) -> Forall (in_graph g) cs ->
  locals_of order g vs cs = Ok lg -> n < length (g_nodes g) -> get_ lg n x = Ok o ->
  forall l, o = Some l <-> exists d, visible g (history vs cs) x n d l.
Proof. exact scope. Qed.
Print Assumptions C32_scope.

(** The closest binding was made at something that comes before, and nothing in between binds the variable. *)
Theorem C32_closest : forall s e g cs0 bs x n d l, init s e = Ok (g, cs0) -> visible g bs x n d l ->
  ahead g d n /\ bound_at bs d x = Some l /\ d <= n /\ forall m, ahead g d m -> ahead g m n -> m <> d -> bound_at bs m x = None.
Proof. exact closest. Qed.
Print Assumptions C32_closest.

(** What is bound in an argument is seen in that argument only. *)
Theorem C32_argument : forall s e g cs0 bs x a d n l, init s e = Ok (g, cs0) ->
  (exists o t, node g o = Some (NOp t) /\ In a (children g o) /\ is_flag g a = false) ->
  visible g bs x n d l -> inside g a d -> inside g a n.
Proof. exact in_arg. Qed.
Print Assumptions C32_argument.

(** The body of a definition sees what is bound in that body only. *)
Theorem C32_body : forall s e g cs0 bs x b d n l, init s e = Ok (g, cs0) ->
  (exists c t ps, node g c = Some (NDef t ps) /\ In b (children g c)) ->
  visible g bs x n d l -> inside g b n -> inside g b d.
Proof. exact in_body. Qed.
Print Assumptions C32_body.

(** Slots are below the size allocated, and two references share a slot only if they refer to the same binding. *)
Theorem C32_slots : forall s e g cs0 order vs cs lg n x t k, init s e = Ok (g, cs0) -> (forall m, Permutation (order m) m) -> Forall (in_graph g) cs ->
  locals_of order g vs cs = Ok lg -> n < length (g_nodes g) -> get_ lg n x = Ok (Some (EVar t k)) ->
  k < lg_count lg /\ forall n' x' t', n' < length (g_nodes g) -> get_ lg n' x' = Ok (Some (EVar t' k)) ->
    exists d, x = x' /\ t = t' /\ visible g (history vs cs) x n d (EVar t k) /\ visible g (history vs cs) x n' d (EVar t k).
Proof. exact slots. Qed.
Print Assumptions C32_slots.

(** An answer given as final stays the same, as long as blocks bind before they are sealed. *)
Theorem C32_stable : forall s e g cs0 order vs cs1 cs2 lg1 lg2 n x o, init s e = Ok (g, cs0) -> (forall m, Permutation (order m) m) -> orderly g [] (cs1 ++ cs2) ->
  locals_of order g vs cs1 = Ok lg1 -> locals_of order g vs (cs1 ++ cs2) = Ok lg2 -> n < length (g_nodes g) ->
  get_opt lg1 n x = Ok (true, o) -> get_opt lg2 n x = Ok (true, o).
Proof. exact stays. Qed.
Print Assumptions C32_stable.

(** A request for a variable adds one, unless the node itself has it already. *)
Theorem C32_new_var : forall s e g cs0 order vs cs lg n x t, init s e = Ok (g, cs0) -> (forall m, Permutation (order m) m) -> Forall (in_graph g) cs ->
  locals_of order g vs cs = Ok lg -> n < length (g_nodes g) ->
  new_var lg n x t = match bound_at (history vs cs) n x with Some (EVar t' k) => Ok (inl (EVar t' k)) | Some (EPtr _) => Panic | None => Ok (inr (NewVar x t n)) end /\
  forall to, new_lazy lg n x to = match bound_at (history vs cs) n x with Some (EPtr _) => Ok (inl tt) | Some (EVar _ _) => Panic | None => Ok (inr (NewLazy x to n)) end.
Proof. exact new_var_spec. Qed.
Print Assumptions C32_new_var.

(** [get 1 $x | get { get $x | get $x } $x | = $x]: the first block binds [x] for the second, and inside the argument the
    first block binds it again for the next.  The body of [=] binds its parameter [rhs]. *)
Definition scopes := ex [blk "get" [num 1; var "x"]; blk "get" [sub [blk "get" [var "x"]; blk "get" [var "x"]]; var "x"]; blk "=" [var "x"]].
Definition idm (m : lmap) : lmap := m.
Definition x : str := lit "x".
Definition before : list lchg := [NewVar x TNum 4; Seal 1].
Definition after : list lchg := [NewVar x TStr 11; Seal 9; Seal 11; Seal 4; Seal 7; NewLazy (lit "rhs") 8 16; SealExpr 16; Seal 17].
Definition ask (cs : list lchg) (n : nat) (y : str) : res (bool * option elocal) :=
  match init sample scopes with Ok (g, _) => let? lg := locals_of idm g [] cs in get_opt lg n y | _ => Panic end.

Example C32_example : exists g cs0, init sample scopes = Ok (g, cs0) /\ Forall (in_graph g) (before ++ after) /\ orderly g [] (before ++ after) /\
  children g 0 = [1; 4; 7] /\ children g 4 = [5; 6] /\ children g 5 = [9; 11] /\ In 16 (children g 15) /\
  ask before 3 x = Ok (true, None) /\ ask before 10 x = Ok (false, None) /\ ask (before ++ after) 3 x = Ok (true, None) /\
  ask (before ++ after) 10 x = Ok (true, Some (EVar TNum 0)) /\ ask (before ++ after) 12 x = Ok (true, Some (EVar TStr 1)) /\
  ask (before ++ after) 8 x = Ok (true, Some (EVar TNum 0)) /\ ask (before ++ after) 18 x = Ok (true, None) /\
  ask (before ++ after) 18 (lit "rhs") = Ok (true, Some (EPtr 8)).
Proof.
  do 2 eexists. split; [vm_compute; reflexivity|]. split; [repeat constructor|]. split.
  - cbn [orderly before after app]. repeat split.
    + left. exists 0. eexists. exists [], 1, [7]. split; [vm_compute; reflexivity|]. split; [vm_compute; reflexivity|]. intros [].
    + eexists. vm_compute. reflexivity.
    + left. exists 5. eexists. exists [], 9, []. split; [vm_compute; reflexivity|]. split; [vm_compute; reflexivity|]. cbn. intuition discriminate.
    + eexists. vm_compute. reflexivity.
    + eexists. vm_compute. reflexivity.
    + eexists. vm_compute. reflexivity.
    + eexists. vm_compute. reflexivity.
    + right. right. exists 15. do 2 eexists. split; [vm_compute; reflexivity|]. split; [vm_compute; auto|]. cbn. intuition discriminate.
    + exists 15. do 2 eexists. split; [vm_compute; reflexivity|]. vm_compute. auto.
    + eexists. vm_compute. reflexivity.
  - vm_compute. repeat split. now left.
Qed.

(** A second binding of a name at one place is given the first variable, whatever its type:
    [let 'x' $a 1 $a] writes a number where a string was announced. *)
Theorem C32_rebind_refuted : exists g cs0 lg, init sample scopes = Ok (g, cs0) /\
  locals_of idm g [] [NewVar x TStr 4] = Ok lg /\ new_var lg 4 x TNum = Ok (inl (EVar TStr 0)).
Proof. do 3 eexists. split; [vm_compute; reflexivity|]. split; vm_compute; reflexivity. Qed.
Print Assumptions C32_rebind_refuted.

(** [fold-while] is sealed before it binds [row] for its last argument: the answer given there as final changes. *)
Theorem C32_early_seal_refuted : exists cs1 cs2 l, ask cs1 3 x = Ok (true, None) /\ ask (cs1 ++ cs2) 3 x = Ok (true, Some l).
Proof. exists [NewVar x TTabRow 2; Seal 1], [NewVar x TTabRow 3], (EVar TTabRow 1). vm_compute. auto. Qed.
Print Assumptions C32_early_seal_refuted.
