(** C20: the operators derived from comparisons, the greatest and the least. *)
From Coq Require Import String List ZArith NArith Bool Arith.
From Verif Require Import Model.Base Model.Value Model.Exec Model.Intrinsics Model.Tuple Model.Compare
  Spec.ExecSpec Spec.LogicSpec Spec.TypeSpec Spec.CompareSpec Proofs.CompareProofs Proofs.DerivedProofs.
Import ListNotations.
Set Implicit Arguments.

(** Each of the operators compiles on each comparable type, runs its argument once, and gives what the order says.  It leaves
    alone the variables that are not its own. *)
Theorem C20_operators (W : Type) (op : operator) (t : ty) (k j j' : nat) (rhs : hold W) : comparable t ->
  exists s, op_step op t k j j' rhs = Ok s /\
  (forall v e w w1 r, has_ty v t -> has_ty r t -> k < length e -> j < length e -> j' < length e ->
    resolve rhs v e w = (w1, Ok r) ->
    exists e', invoke s v e w = (w1, Ok (VBool (truth op (order v r)), e')) /\ length e' = length e /\
      forall i, i <> k -> i <> j -> i <> j' -> nth_error e' i = nth_error e i) /\
  (forall v e w w1 f, resolve rhs v e w = (w1, halt f) -> invoke s v e w = (w1, halt f)).
Proof. exact (@derived_run W op t k j j' rhs). Qed.
Print Assumptions C20_operators.

(** Exactly one of [<], [=], [>] holds. *)
Theorem C20_trichotomy (W : Type) (t : ty) (k j j' : nat) (rhs : hold W) sl se sg v e w wl we wg bl be bg el ee eg :
  comparable t -> has_ty v t -> k < length e -> j < length e -> j' < length e ->
  (forall w1 r, resolve rhs v e w = (w1, Ok r) -> has_ty r t) ->
  op_step OpLt t k j j' rhs = Ok sl -> op_step OpEq t k j j' rhs = Ok se -> op_step OpGt t k j j' rhs = Ok sg ->
  invoke sl v e w = (wl, Ok (VBool bl, el)) -> invoke se v e w = (we, Ok (VBool be, ee)) ->
  invoke sg v e w = (wg, Ok (VBool bg, eg)) ->
  (bl, be, bg) = (true, false, false) \/ (bl, be, bg) = (false, true, false) \/ (bl, be, bg) = (false, false, true).
Proof. exact (@trichotomy W t k j j' rhs sl se sg v e w wl we wg bl be bg el ee eg). Qed.
Print Assumptions C20_trichotomy.

(** [max] and [min]: on numbers, with at least one argument, all numbers. *)
Theorem C20_compiles (W : Type) (in_ty t : ty) (args : list (node W)) :
  ((exists s, max_intrinsic in_ty args = Ok (s, t)) <->
   ty_eqb in_ty TNum = true /\ args <> [] /\ t = TNum /\ forall n, In n args -> exists h, accepted in_ty TNum n h) /\
  ((exists s, min_intrinsic in_ty args = Ok (s, t)) <->
   ty_eqb in_ty TNum = true /\ args <> [] /\ t = TNum /\ forall n, In n args -> exists h, accepted in_ty TNum n h).
Proof. exact (conj (constrained_compiles TNum as_num VNum Z.max in_ty args t) (constrained_compiles TNum as_num VNum Z.min in_ty args t)). Qed.
Print Assumptions C20_compiles.

(** They run each argument once, in order, and give the greatest (least) of the input and the arguments. *)
Theorem C20_max (W : Type) (in_ty t : ty) (args : list (node W)) s n e w w' u e' : max_intrinsic in_ty args = Ok (s, t) ->
  (invoke s (VNum n) e w = (w', Ok (u, e')) <->
   e' = e /\ exists ns m, each (VNum n) (map (arg_of e) args) w (map VNum ns) w' /\ u = VNum m /\ greatest m (n :: ns)).
Proof. exact (@max_value W in_ty t args s n e w w' u e'). Qed.
Print Assumptions C20_max.
Theorem C20_min (W : Type) (in_ty t : ty) (args : list (node W)) s n e w w' u e' : min_intrinsic in_ty args = Ok (s, t) ->
  (invoke s (VNum n) e w = (w', Ok (u, e')) <->
   e' = e /\ exists ns m, each (VNum n) (map (arg_of e) args) w (map VNum ns) w' /\ u = VNum m /\ least m (n :: ns)).
Proof. exact (@min_value W in_ty t args s n e w w' u e'). Qed.
Print Assumptions C20_min.

(** They stop exactly when an argument does, or gives something that is not a number. *)
Theorem C20_stops (W : Type) (in_ty t : ty) (args : list (node W)) s n e w w' f :
  max_intrinsic in_ty args = Ok (s, t) \/ min_intrinsic in_ty args = Ok (s, t) ->
  (invoke s (VNum n) e w = (w', halt f) <->
   exists args1 x args2 ns w1, args = args1 ++ x :: args2 /\ each (VNum n) (map (arg_of e) args1) w (map VNum ns) w1 /\
     (arg_of e x (VNum n) w1 = (w', halt f) \/
      exists y, arg_of e x (VNum n) w1 = (w', Ok y) /\ ty_of y <> TNum /\ f = Some 1)).
Proof. exact (@max_min_stops W in_ty t args s n e w w' f). Qed.
Print Assumptions C20_stops.

Definition pair := tuple_ty [TNum; TStr].
Definition mk (n : Z) (s : string) : value := VOgma pair 0 [VNum n; VStr (lit s)].
Definition go (op : operator) (a b : value) : res value :=
  match op_step op (TDef pair) 0 1 2 (HLit b) with
  | Ok s => match invoke s a [VNil; VNil; VNil] tt with (_, Ok (v, _)) => Ok v | (_, Err n) => Err n | (_, Panic) => Panic end
  | Err n => Err n
  | Panic => Panic
  end.
Example C20_example :
  map (fun op => go op (mk 1 "a") (mk 1 "b")) [OpEq; OpNe; OpLt; OpLe; OpGt; OpGe]
  = map (fun b => Ok (VBool b)) [false; true; true; true; false; false] /\
  map (fun op => go op (mk 1 "b") (mk 1 "b")) [OpEq; OpNe; OpLt; OpLe; OpGt; OpGe]
  = map (fun b => Ok (VBool b)) [true; false; false; true; false; true] /\
  map (fun op => go op (mk 2 "a") (mk 1 "b")) [OpEq; OpNe; OpLt; OpLe; OpGt; OpGe]
  = map (fun b => Ok (VBool b)) [false; true; false; false; true; true].
Proof. vm_compute. auto. Qed.
Example C20_example_max :
  let num x := Node TNum TNum (Ok (@HLit unit (VNum x), TNum)) None in
  match max_intrinsic TNum [num 3; num (-7); num 5]%Z, min_intrinsic TNum [num 3; num (-7); num 5]%Z with
  | Ok (a, _), Ok (b, _) => invoke a (VNum 4) [] tt = (tt, Ok (VNum 5, [])) /\ invoke b (VNum 4) [] tt = (tt, Ok (VNum (-7), []))
  | _, _ => False
  end.
Proof. vm_compute. auto. Qed.
