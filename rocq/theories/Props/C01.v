(** C01: take and skip split a table (and a string) exactly. *)
From Coq Require Import String List ZArith NArith.
From Verif Require Import Model.Base Model.Value Model.TableCrate Model.TableOps
  Spec.TableSpec Spec.OpsSpec Proofs.Summary1 Proofs.Samples.
Import ListNotations.

Theorem C01_take : forall owned v (t : table), rectangular t ->
  match take_table owned v t with
  | Ok t' => exists n, count_is v n /\ t' = header t ++ firstn (N.to_nat n) (data t)
  | Err _ => forall n, ~ count_is v n
  | Panic => False
  end.
Proof. exact take_table_correct. Qed.
Print Assumptions C01_take.

Theorem C01_skip : forall checked owned v (t : table), rectangular t ->
  ~ count_is v usize_max \/ owned = true ->
  match skip_table checked owned v t with
  | Ok t' => exists n, count_is v n /\ t' = header t ++ skipn (N.to_nat n) (data t)
  | Err _ => forall n, ~ count_is v n
  | Panic => False
  end.
Proof. exact skip_table_correct. Qed.
Print Assumptions C01_skip.

Theorem C01_split : forall checked o1 o2 v (t a b : table), rectangular t ->
  ~ count_is v usize_max \/ o2 = true ->
  take_table o1 v t = Ok a -> skip_table checked o2 v t = Ok b ->
  header a = header t /\ header b = header t /\ data a ++ data b = data t.
Proof. exact take_skip_split. Qed.
Print Assumptions C01_split.

Theorem C01_string : forall v (s : str),
  match take_str v s, skip_str v s with
  | Ok a, Ok b => exists n, count_is v n /\ a = firstn (N.to_nat n) s /\ b = skipn (N.to_nat n) s /\ a ++ b = s
  | Err _, Err _ => forall n, ~ count_is v n
  | _, _ => False
  end.
Proof. exact take_skip_str. Qed.
Print Assumptions C01_string.

Example C01_example : rectangular stock /\ count_is (num 2) 2 /\
  take_table false (num 2) stock = Ok (firstn 3 stock) /\
  skip_table true false (num 2) stock = Ok [[S' "name"; S' "qty"]; [S' "pear"; ENil]].
Proof. split; [exact stock_rect|]. split; [split; [reflexivity|discriminate]|]. split; vm_compute; reflexivity. Qed.

(** The increment of the largest count overflows on a shared table: release builds return the
    whole table below a second copy of the header, checked builds panic. *)
Theorem C01_skip_max_refuted : exists v t, rectangular t /\ count_is v usize_max /\
  skip_table false false v t = Ok (header t ++ t) /\ skip_table true false v t = Panic /\
  skip_table false true v t = Ok (header t).
Proof.
  exists (num (Z.of_N usize_max)), stock. split; [exact stock_rect|].
  split; [split; [reflexivity|discriminate]|]. split; [|split]; vm_compute; reflexivity.
Qed.
Print Assumptions C01_skip_max_refuted.
