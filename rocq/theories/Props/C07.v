(** C07: sort-by is a stable sort for every consistent comparison. *)
From Coq Require Import String List ZArith NArith Permutation.
From Verif Require Import Model.Base Model.Value Model.TableCrate Model.RowPar Model.TableOps
  Spec.SortSpec Spec.TableSpec Spec.ParSpec Spec.OpsSpec Proofs.SortProofs Proofs.SortByProofs Proofs.Samples.
Import ListNotations.

Theorem C07_sortby : forall C (so : sorter) (ev : C -> nat -> res value * C) init g sched cmp owned (t : table),
  sort_contract so -> rectangular t -> row_function ev init g -> complete_schedule (length t) sched ->
  match sortby_table so ev init sched cmp owned t with
  | Ok t' =>
      exists keys, map Ok keys = map g (seq 1 (length (data t))) /\
        t <> [] /\ header t' = header t /\ Permutation (data t) (data t') /\
        forall c, refines_order cmp keys c ->
          exists out, is_stable_sort (by_key c) (combine (data t) keys) out /\ data t' = map fst out
  | Err e =>
      (exists i, 1 <= i <= length (data t) /\ g i = Err e) \/
      (exists i j a b, 1 <= i <= length (data t) /\ 1 <= j <= length (data t) /\
         g i = Ok a /\ g j = Ok b /\ cmp a b = Err e)
  | Panic =>
      t = [] \/
      (exists i, 1 <= i <= length (data t) /\ g i = Panic) \/
      (exists i j a b, 1 <= i <= length (data t) /\ 1 <= j <= length (data t) /\
         g i = Ok a /\ g j = Ok b /\ cmp a b = Panic)
  end.
Proof. exact sortby_outcome. Qed.
Print Assumptions C07_sortby.

(** Key: the name, so the two pears keep their order. *)
Example C07_example :
  let g := fun i => match nth_error stock i with Some (e :: _) => Ok (val_of_ent e) | _ => Err 1 end in
  let cmp := fun a b => match a, b with VStr x, VStr y => Ok (str_cmp x y) | _, _ => Err 1 end in
  sort_contract isort /\ rectangular stock /\ row_function (fun (c : unit) i => (g i, c)) tt g /\
  complete_schedule (length stock) stock_sched /\
  sortby_table isort (fun (c : unit) i => (g i, c)) tt stock_sched cmp false stock =
    Ok [[S' "name"; S' "qty"]; [S' "fig"; n' 3]; [S' "pear"; n' 7]; [S' "pear"; ENil]] /\
  refines_order cmp [VStr (lit "pear"); VStr (lit "fig"); VStr (lit "pear")]
    (fun a b => match a, b with VStr x, VStr y => str_cmp x y | _, _ => Eq end).
Proof.
  cbv zeta. split; [exact isort_contract|]. split; [exact stock_rect|].
  split; [apply pure_row_function|]. split; [exact stock_sched_complete|]. split; [vm_compute; reflexivity|].
  repeat split.
  - intros a Ha; repeat (destruct Ha as [<-|Ha]; [vm_compute; reflexivity|]); destruct Ha.
  - intros a b Ha Hb; repeat (destruct Ha as [<-|Ha]; [repeat (destruct Hb as [<-|Hb]; [vm_compute; reflexivity|]); destruct Hb|]); destruct Ha.
  - intros a b c Ha Hb Hc.
    repeat (destruct Ha as [<-|Ha]; [repeat (destruct Hb as [<-|Hb]; [repeat (destruct Hc as [<-|Hc]; [vm_compute; congruence|]); destruct Hc|]); destruct Hb|]); destruct Ha.
  - intros a b x Ha Hb; repeat (destruct Ha as [<-|Ha]; [repeat (destruct Hb as [<-|Hb]; [vm_compute; congruence|]); destruct Hb|]); destruct Ha.
Qed.

(** The table with no rows at all panics. *)
Theorem C07_empty_refuted : exists so cmp, sort_contract so /\
  sortby_table so (fun (c : unit) (_ : nat) => (Ok VNil, c)) tt [] cmp true [] = Panic.
Proof. exists isort, (fun _ _ => Ok Eq). split; [exact isort_contract|reflexivity]. Qed.
Print Assumptions C07_empty_refuted.
