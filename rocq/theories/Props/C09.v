(** C09: grp-by partitions the data rows by a key expression. *)
From Coq Require Import String List ZArith NArith.
From Verif Require Import Model.Base Model.Value Model.TableCrate Model.RowPar Model.TableOps
  Spec.SortSpec Spec.TableSpec Spec.ParSpec Spec.GroupSpec Spec.OpsSpec Proofs.GrpProofs Proofs.Samples.
Import ListNotations.

Theorem C09_grpby : forall C (ev : C -> nat -> res value * C) init g sched cmp (t : table),
  rectangular t -> row_function ev init g -> complete_schedule (length t) sched ->
  match grpby_table ev init sched cmp t with
  | Ok t' =>
      exists keys, map Ok keys = map g (seq 1 (length (data t))) /\
        forall c, decides_order cmp keys c ->
          exists groups, (forall h d, t = h :: d -> is_grouping c (combine keys d) h groups) /\
            (t = [] -> groups = []) /\
            t' = [EObj (VStr (lit "key")); EObj (VStr (lit "value"))] ::
                 map (fun g => [ent_of_val (fst g); EObj (VTab (snd g))]) groups
  | Err e => exists i, 1 <= i <= length (data t) /\ g i = Err e
  | Panic => exists i, 1 <= i <= length (data t) /\ g i = Panic
  end.
Proof. exact grpby_outcome. Qed.
Print Assumptions C09_grpby.

Example C09_example :
  let g := fun i => match nth_error stock i with Some (e :: _) => Ok (val_of_ent e) | _ => Err 1 end in
  let cmp := fun a b => match a, b with VStr x, VStr y => Ok (str_cmp x y) | _, _ => Err 1 end in
  rectangular stock /\ row_function (fun (c : unit) i => (g i, c)) tt g /\
  complete_schedule (length stock) stock_sched /\
  grpby_table (fun (c : unit) i => (g i, c)) tt stock_sched cmp stock =
  Ok [[S' "key"; S' "value"];
      [S' "fig"; EObj (VTab [[S' "name"; S' "qty"]; [S' "fig"; n' 3]])];
      [S' "pear"; EObj (VTab [[S' "name"; S' "qty"]; [S' "pear"; n' 7]; [S' "pear"; ENil]])]].
Proof.
  cbv zeta. split; [exact stock_rect|].
  split; [apply pure_row_function|]. split; [exact stock_sched_complete|]. vm_compute; reflexivity.
Qed.

(** A comparison that always fails is not reported: everything lands in one group. *)
Theorem C09_comparison_error_ignored_refuted : exists t g cmp u,
  rectangular t /\ (forall a b, cmp a b = Err 7) /\
  grpby_table (fun (c : unit) i => (g i, c)) tt stock_sched cmp t = Ok u /\ length (data u) = 1 /\
  complete_schedule (length t) stock_sched.
Proof.
  exists stock, (fun i => Ok (num (Z.of_nat i))), (fun _ _ => Err 7). eexists.
  split; [exact stock_rect|]. split; [reflexivity|]. split; [vm_compute; reflexivity|].
  split; [reflexivity|exact stock_sched_complete].
Qed.
Print Assumptions C09_comparison_error_ignored_refuted.
