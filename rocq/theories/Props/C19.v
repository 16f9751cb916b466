(** C19: [cmp] is a total order and [eq] is its equality, also on nested tuples. *)
From Coq Require Import String List ZArith NArith Bool Arith.
From Verif Require Import Model.Base Model.Value Model.Exec Model.Intrinsics Model.Tuple Model.Compare
  Spec.ExecSpec Spec.LogicSpec Spec.TypeSpec Spec.CompareSpec Proofs.CompareProofs Proofs.DerivedProofs.
Import ListNotations.
Set Implicit Arguments.

(** [order] is a total order on the values of each comparable type. *)
Theorem C19_order (t : ty) (a b c : value) : comparable t -> has_ty a t -> has_ty b t -> has_ty c t ->
  (order a b = Eq <-> a = b) /\
  order b a = CompOpp (order a b) /\
  (order a b <> Gt -> order b c <> Gt -> order a c <> Gt).
Proof. exact (fun C Ha Hb Hc => match order_is_order C with conj E (conj A T) => conj (E a b Ha Hb) (conj (A a b Ha Hb) (T a b c Ha Hb Hc)) end). Qed.
Print Assumptions C19_order.

(** Tuples are ordered lexicographically. *)
Theorem C19_lexicographic (ts : list ty) (xs ys : list value) : Forall comparable ts -> have_tys xs ts -> have_tys ys ts ->
  (order (VOgma (tuple_ty ts) 0 xs) (VOgma (tuple_ty ts) 0 ys) = Lt <->
   exists k x y, firstn k xs = firstn k ys /\ nth_error xs k = Some x /\ nth_error ys k = Some y /\ order x y = Lt).
Proof. exact (@lexicographic ts xs ys). Qed.
Print Assumptions C19_lexicographic.

(** [cmp] compiles on each comparable type with an argument of this type, and gives the order of the input and the argument,
    which is run once; when the argument stops, so does [cmp]. *)
Theorem C19_cmp (W : Type) (t : ty) (n : node W) : comparable t -> (exists h, accepted t t n h) ->
  exists s, cmp_intrinsic t [n] = Ok (s, TOrd) /\
  forall v e w, has_ty v t -> t <> TNil ->
    (forall w1 r, arg_of e n v w = (w1, Ok r) -> has_ty r t -> invoke s v e w = (w1, Ok (VOrd (order v r), e))) /\
    (forall w1 f, arg_of e n v w = (w1, halt f) -> invoke s v e w = (w1, halt f)).
Proof. exact (@cmp_compiled W t n). Qed.
Print Assumptions C19_cmp.

(** [eq] likewise: true exactly when the values are the same, hence exactly when [cmp] gives [Eq]. *)
Theorem C19_eq (W : Type) (t : ty) (n : node W) : comparable t -> (exists h, accepted t t n h) ->
  exists s, eq_intrinsic t [n] = Ok (s, TBool) /\
  forall v e w, has_ty v t -> t <> TNil ->
    (forall w1 r, arg_of e n v w = (w1, Ok r) -> has_ty r t ->
       exists b, invoke s v e w = (w1, Ok (VBool b, e)) /\ (b = true <-> v = r)) /\
    (forall w1 f, arg_of e n v w = (w1, halt f) -> invoke s v e w = (w1, halt f)).
Proof. exact (@eq_compiled W t n). Qed.
Print Assumptions C19_eq.

(** On [Nil] the answer is known: the argument is not run. *)
Theorem C19_nil (W : Type) (n : node W) : (exists h, accepted TNil TNil n h) ->
  exists s s', cmp_intrinsic TNil [n] = Ok (s, TOrd) /\ eq_intrinsic TNil [n] = Ok (s', TBool) /\
  forall e w, invoke s VNil e w = (w, Ok (VOrd Eq, e)) /\ invoke s' VNil e w = (w, Ok (VBool true, e)).
Proof. exact (@nil_compiled W n). Qed.
Print Assumptions C19_nil.

(** What compiles has one argument, of the type of the input, which is not a table or a row; of the types that are defined
    only [Ord] and those named as tuples are. *)
Theorem C19_rejects (W : Type) (t : ty) (args : list (node W)) (s : step W) (o : ty) :
  cmp_intrinsic t args = Ok (s, o) \/ eq_intrinsic t args = Ok (s, o) ->
  (exists n h, args = [n] /\ accepted t t n h) /\ t <> TTab /\ t <> TTabRow /\
  forall d, t = TDef d -> is_ord d = true \/ is_tuple d = true.
Proof. exact (@compare_rejects W t args s o). Qed.
Print Assumptions C19_rejects.

(** Nested tuples: (1, ("b", true)). *)
Definition inner := tuple_ty [TStr; TBool].
Definition outer := tuple_ty [TNum; TDef inner].
Definition mk (n : Z) (s : string) (b : bool) : value :=
  VOgma outer 0 [VNum n; VOgma inner 0 [VStr (lit s); VBool b]].
Definition tick (x : value) (t : ty) : node nat :=
  Node t t (Ok (HExpr [Op [] [] (fun _ => Ask (fun w => (S w, x)) (fun x => Done x))], t)) None.
Definition go (r : res (step nat * ty)) (v : value) : nat * res (value * env) :=
  match r with Ok (s, _) => invoke s v [] 0 | Err n => (0, Err n) | Panic => (0, Panic) end.

Example C19_comparable : comparable (TDef outer).
Proof.
  apply comparable_tuple; [discriminate|]. constructor; [constructor|]. constructor; [|constructor].
  apply comparable_tuple; [discriminate|]. repeat constructor.
Qed.
Example C19_typed n s b : has_ty (mk n s b) (TDef outer).
Proof. apply has_tuple. eexists. split; [reflexivity|]. repeat constructor. Qed.
Example C19_accepted x : exists h, accepted (TDef outer) (TDef outer) (tick x (TDef outer)) h.
Proof. eexists. split; [reflexivity|]. split; [reflexivity|]. eexists. split; reflexivity. Qed.
Example C19_example :
  go (cmp_intrinsic (TDef outer) [tick (mk 1 "b" true) (TDef outer)]) (mk 1 "b" false) = (1, Ok (VOrd Lt, [])) /\
  go (cmp_intrinsic (TDef outer) [tick (mk 1 "a" true) (TDef outer)]) (mk 1 "b" false) = (1, Ok (VOrd Gt, [])) /\
  go (cmp_intrinsic (TDef outer) [tick (mk 1 "b" true) (TDef outer)]) (mk 1 "b" true) = (1, Ok (VOrd Eq, [])) /\
  go (eq_intrinsic (TDef outer) [tick (mk 1 "b" true) (TDef outer)]) (mk 1 "b" true) = (1, Ok (VBool true, [])) /\
  go (eq_intrinsic (TDef outer) [tick (mk 1 "b" true) (TDef outer)]) (mk 1 "b" false) = (1, Ok (VBool false, [])).
Proof. vm_compute. auto. Qed.
(** The argument of [eq] on [Nil] is not run though it is given. *)
Example C19_example_nil : go (eq_intrinsic TNil [tick VNil TNil]) VNil = (0, Ok (VBool true, [])).
Proof. vm_compute. reflexivity. Qed.
