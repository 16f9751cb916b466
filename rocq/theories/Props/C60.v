(** C60: arithmetic goes from left to right and is exact where the format has room. *)
From Coq Require Import String List ZArith Bool Floats.SpecFloat.
From Verif Require Import Model.Base Model.Value Model.Exec Model.Intrinsics Model.Arith
  Spec.ExecSpec Spec.LogicSpec Spec.ArithSpec Proofs.FloatProofs Proofs.ArithProofs.
Import ListNotations.
Open Scope Z_scope.

(** The ops on numbers compile on a number with at least one argument, all of them numbers. *)
Theorem C60_compiles : forall W from to op in_ty (args : list (node W)) o, In op [@add_num W; @sub_num W; @mul_num W; @div_num W] ->
  (exists s, op from to in_ty args = Ok (s, o)) <->
  ty_eqb in_ty TNum = true /\ args <> [] /\ o = TNum /\ forall n, In n args -> exists h, accepted in_ty TNum n h.
Proof. exact ops_compile. Qed.
Print Assumptions C60_compiles.

(** They run each argument once, in order, and calculate from left to right, starting with the input. *)
Theorem C60_run : forall W from to op f in_ty (args : list (node W)) s o v e w w' u e',
  In (op, f) [(@add_num W, f_add); (@sub_num W, f_sub); (@mul_num W, f_mul); (@div_num W, f_div)] -> op from to in_ty args = Ok (s, o) ->
  (invoke s v e w = (w', Ok (u, e')) <->
   e' = e /\ exists a vs xs, from v = Ok a /\ each v (map (arg_of e) args) w vs w' /\
     Forall2 (fun v x => from v = Ok x) vs xs /\ u = to (fold_left f xs a)).
Proof. exact ops_run. Qed.
Print Assumptions C60_run.

(** [+] on text puts the texts one after the other. *)
Theorem C60_text : forall W in_ty (args : list (node W)) s o x e w w' u e', add_str in_ty args = Ok (s, o) ->
  (invoke s (VStr x) e w = (w', Ok (u, e')) <->
   e' = e /\ exists ss, each (VStr x) (map (arg_of e) args) w (map VStr ss) w' /\ u = VStr (x ++ concat ss)).
Proof. exact text_run. Qed.
Print Assumptions C60_text.

(** On whole numbers, [+], [-] and [*] give the exact result if all results on the way are below 2^53. *)
Theorem C60_whole : forall W from to op (g : Z -> Z -> Z) in_ty (args : list (node W)) s o v e w w' u e',
  In (op, g) [(@add_num W, Z.add); (@sub_num W, Z.sub); (@mul_num W, Z.mul)] ->
  op from to in_ty args = Ok (s, o) -> invoke s v e w = (w', Ok (u, e')) ->
  forall n vs ns, (exists x, from v = Ok x /\ whole x n) -> each v (map (arg_of e) args) w vs w' ->
  Forall2 (fun v n => exists x, from v = Ok x /\ whole x n) vs ns -> Forall small (on_the_way g n ns) ->
  exists x, u = to x /\ whole x (fold_left g ns n).
Proof. exact ops_whole. Qed.
Print Assumptions C60_whole.

(** [/] gives the exact result if no remainder is left on the way. *)
Theorem C60_shares : forall W from to in_ty (args : list (node W)) s o v e w w' u e',
  div_num from to in_ty args = Ok (s, o) -> invoke s v e w = (w', Ok (u, e')) ->
  forall n vs ns m, (exists x, from v = Ok x /\ whole x n) -> each v (map (arg_of e) args) w vs w' ->
  Forall2 (fun v n => exists x, from v = Ok x /\ whole x n) vs ns -> shared n ns m ->
  exists x, u = to x /\ whole x m.
Proof. exact whole_shares. Qed.
Print Assumptions C60_shares.

(** The same with any common power of two in place of one. *)
Theorem C60_sum : forall k xs ns x n, exactly x n k -> Forall2 (fun x n => exactly x n k) xs ns ->
  Forall (fun m => fits m k) (on_the_way Z.add n ns) -> exactly (fold_left f_add xs x) (fold_left Z.add ns n) k.
Proof. exact sum_exact. Qed.
Print Assumptions C60_sum.
Theorem C60_difference : forall k xs ns x n, exactly x n k -> Forall2 (fun x n => exactly x n k) xs ns ->
  Forall (fun m => fits m k) (on_the_way Z.sub n ns) -> exactly (fold_left f_sub xs x) (fold_left Z.sub ns n) k.
Proof. exact difference_exact. Qed.
Print Assumptions C60_difference.
Theorem C60_product : forall x y a b k l, exactly x a k -> exactly y b l -> fits (a * b) (k + l) ->
  exactly (f_mul x y) (a * b) (k + l).
Proof. exact mul_exact. Qed.
Print Assumptions C60_product.
(** A quotient which fits is exact. *)
Theorem C60_quotient : forall x y a b k l, exactly x (a * b) (k + l) -> exactly y b l -> b <> 0 -> fits a k ->
  exactly (f_div x y) a k.
Proof. exact div_exact. Qed.
Print Assumptions C60_quotient.
(** [root 2] of a square is its root. *)
Theorem C60_root : forall cbrt powf x a k, exactly x (a * a) (2 * k) -> 0 <= a -> fits a k ->
  exactly (root_num cbrt powf x (f_of_Z 2)) a k.
Proof. exact root_square. Qed.
Print Assumptions C60_root.
(** [root 3] is the cubic root of the system; any other whole index is given to its power, as is an index that is not a number. *)
Theorem C60_root_cases : forall cbrt powf x,
  root_num cbrt powf x (f_of_Z 3) = cbrt x /\
  (forall y n, whole y n -> 0 <= n -> small n -> n <> 2 -> n <> 3 -> root_num cbrt powf x y = powf x (f_div (f_of_Z 1) y)) /\
  root_num cbrt powf x S754_nan = powf x S754_nan.
Proof. exact root_cases. Qed.
Print Assumptions C60_root_cases.

(** Comparing floats compares the numbers. *)
Theorem C60_compare : forall x y a b k, exactly x a k -> exactly y b k -> f_cmp x y = Some (a ?= b).
Proof. exact cmp_exact. Qed.
Print Assumptions C60_compare.

(** A whole number below 2^53 becomes the float which is exactly this number. *)
Theorem C60_of_whole : forall n, small n -> whole (f_of_Z n) n.
Proof. exact of_Z_exact. Qed.
Print Assumptions C60_of_whole.

Definition get (v : value) : res f64 := rmap f_of_Z (as_num v).
Definition put (x : f64) : value :=
  match x with S754_finite s m e => VNum (Z.shiftl (if s then Z.neg m else Z.pos m) e) | S754_zero _ => VNum 0 | _ => VNil end.
Definition num (x : Z) : node unit := Node TNum TNum (Ok (@HLit unit (VNum x), TNum)) None.
Definition go (op : (value -> res f64) -> (f64 -> value) -> ty -> list (node unit) -> res (step unit * ty)) (n : Z) (ns : list Z) : option (res (value * env)) :=
  match op get put TNum (map num ns) with Ok (s, _) => Some (snd (invoke s (VNum n) [] tt)) | _ => None end.
Example C60_example :
  go (@add_num unit) 1 [2; 3] = Some (Ok (VNum 6, [])) /\ go (@sub_num unit) 1 [2; 3] = Some (Ok (VNum (-4), [])) /\
  go (@mul_num unit) (-4) [2; 3] = Some (Ok (VNum (-24), [])) /\ go (@div_num unit) 24 [3; -2] = Some (Ok (VNum (-4), [])) /\
  Forall small (on_the_way Z.mul (-4) [2; 3]) /\ shared 24 [3; -2] (-4) /\
  (* 3/8 + 1/8 = 1/2, (3/8)^2 = 9/64, root of 9/64 = 3/8 *)
  exactly (f_div (f_of_Z 3) (f_of_Z 8)) 3 (-3) /\
  exactly (f_add (f_div (f_of_Z 3) (f_of_Z 8)) (f_div (f_of_Z 1) (f_of_Z 8))) 4 (-3) /\
  exactly (f_sqrt (f_div (f_of_Z 9) (f_of_Z 64))) 3 (-3) /\
  match add_str TStr [Node TStr TStr (Ok (@HLit unit (VStr (lit "b")), TStr)) None] with
  | Ok (s, _) => invoke s (VStr (lit "a")) [] tt = (tt, Ok (VStr (lit "ab"), []))
  | _ => False
  end.
Proof.
  do 5 (split; [repeat constructor|]). split; [exists 8; repeat split; try discriminate; exists (-4); repeat split; discriminate|].
  repeat split; repeat constructor.
Qed.

(** From 2^53 on adding one may be lost. *)
Theorem C60_large_refuted : exists n, whole (f_of_Z n) n /\ f_add (f_of_Z n) (f_of_Z 1) = f_of_Z n.
Proof. exists 9007199254740992. split; [repeat constructor|]. vm_compute. reflexivity. Qed.

(** The order of fractions matters: 0.1 + 0.2 + 0.3 is not 0.3 + 0.2 + 0.1. *)
Theorem C60_order_refuted : exists x y z, f_add (f_add x y) z <> f_add (f_add z y) x /\
  (f_finite x && f_finite y && f_finite z && f_finite (f_add (f_add x y) z))%bool = true.
Proof.
  exists (f_div (f_of_Z 1) (f_of_Z 10)), (f_div (f_of_Z 1) (f_of_Z 5)), (f_div (f_of_Z 3) (f_of_Z 10)).
  split; [vm_compute; discriminate|vm_compute; reflexivity].
Qed.

(** "Dividing by 0 will result in infinity" (help text): not for 0, where the result is not a number at all. *)
Theorem C60_zero_refuted : exists x, f_finite x = true /\ f_div x (f_of_Z 0) = S754_nan.
Proof. exists (f_of_Z 0). split; reflexivity. Qed.

(** Dividing and multiplying by the same number does not lead back. *)
Theorem C60_back_refuted : exists n m, small n /\ small m /\ m <> 0 /\
  f_mul (f_div (f_of_Z n) (f_of_Z m)) (f_of_Z m) <> f_of_Z n.
Proof. exists 1, 49. repeat split; try (vm_compute; discriminate); repeat constructor. Qed.
