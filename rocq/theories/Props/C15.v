(** C15: len, nth and range agree. *)
From Coq Require Import String List ZArith NArith.
From Verif Require Import Model.Base Model.Value Model.TableCrate Model.TableOps
  Spec.TableSpec Spec.ColSpec Spec.OpsSpec Proofs.LenProofs Proofs.LenProofs2 Proofs.Samples.
Import ListNotations.

Theorem C15_len : forall cols (t : table) (s : str),
  len_table cols t = num_of_Z (Z.of_nat (if cols then cols_len t else length (data t))) /\
  len_str s = num_of_Z (Z.of_nat (length s)).
Proof. exact len_correct. Qed.
Print Assumptions C15_len.

Theorem C15_nth_string : forall v n s, count_is v n ->
  match nth_str v s with
  | Ok r => exists c, nth_error s (N.to_nat n) = Some c /\ r = [c]
  | Err _ => (N.of_nat (length s) <= n)%N
  | Panic => False
  end.
Proof. exact nth_str_full. Qed.
Print Assumptions C15_nth_string.

(** Row [n] (the first data row is number 0) is handed to the expression, in both build modes. *)
Theorem C15_nth_table : forall checked v n expr (t : table),
  count_is v n -> n <> usize_max ->
  match nth_error (data t) (N.to_nat n) with
  | Some _ => nth_table checked v expr t = expr (1 + N.to_nat n)
  | None => exists e, nth_table checked v expr t = Err e
  end.
Proof. exact nth_table_full. Qed.
Print Assumptions C15_nth_table.

Theorem C15_range : forall a b t, range a b = Ok t ->
  exists from to, a = VNum (num_of_Z (Z.of_N from)) /\ b = VNum (num_of_Z (Z.of_N to)) /\
  header t = [[EObj (VStr (lit "i"))]] /\
  data t = map (fun k => [ENum (num_of_Z (Z.of_N from + Z.of_nat k))]) (seq 0 (N.to_nat to - N.to_nat from)) /\
  len_table false t = num_of_Z (Z.max 0 (Z.of_N to - Z.of_N from)).
Proof. exact range_correct. Qed.
Print Assumptions C15_range.

(** Negative, fractional or huge bounds are refused, nothing panics. *)
Theorem C15_range_total : forall a b,
  match range a b with
  | Ok _ => True
  | Err _ => forall from to, a = VNum (num_of_Z (Z.of_N from)) -> b = VNum (num_of_Z (Z.of_N to)) ->
               (2 ^ 128 <= from \/ 2 ^ 128 <= to)%N
  | Panic => False
  end.
Proof. exact range_total. Qed.
Print Assumptions C15_range_total.

Example C15_example :
  range (num 2) (num 5) = Ok [[S' "i"]; [n' 2]; [n' 3]; [n' 4]] /\
  range (num 5) (num 2) = Ok [[S' "i"]] /\
  count_is (num 1) 1 /\
  nth_table true (num 1) (fun i => Ok (num (Z.of_nat i))) stock = Ok (num 2) /\
  nth_table true (num 3) (fun i => Ok (num (Z.of_nat i))) stock = Err 25 /\
  nth_str (num 2) (lit "abc") = Ok (lit "c").
Proof.
  repeat split; try (vm_compute; reflexivity); try discriminate.
Qed.

(** The largest count wraps to the header row in release builds and panics in checked ones. *)
Theorem C15_nth_max_refuted : exists v t, count_is v usize_max /\
  nth_table false v (fun i => Ok (num (Z.of_nat i))) t = Ok (num 0) /\
  nth_table true v (fun i => Ok (num (Z.of_nat i))) t = Panic.
Proof.
  exists (num (Z.of_N usize_max)), stock. split; [split; [reflexivity|discriminate]|]. split; vm_compute; reflexivity.
Qed.
Print Assumptions C15_nth_max_refuted.
