(** C11: pick, ren and ren-with act on headers only as asked. *)
From Coq Require Import String List ZArith NArith.
From Verif Require Import Model.Base Model.Value Model.TableCrate Model.RowPar Model.TableOps
  Spec.TableSpec Spec.ColSpec Spec.OpsSpec Proofs.PickProofs Proofs.Samples.
Import ListNotations.

Theorem C11_pick : forall add trail names (t : table), rectangular t ->
  match pick_table add trail names t with
  | Ok t' => exists sel rest, Forall2 (selects add t) names sel /\
      (if trail then unselected (cols_len t) sel rest else rest = []) /\
      length t' = length t /\
      forall i r, nth_error t i = Some r ->
        nth_error t' i = Some (map (fun sn => picked_cell i r (snd sn) (fst sn)) (combine sel names) ++
                               map (fun c => cell_at c r) rest)
  | Err _ => add = false /\ exists n, In n names /\ no_column_named t n
  | Panic => False
  end.
Proof. exact pick_table_correct. Qed.
Print Assumptions C11_pick.

(** All references are resolved against the table as given. *)
Theorem C11_ren : forall bindings (t : table),
  match ren_table bindings t with
  | Ok t' => exists idxs vs, Forall2 (denotes t) (map fst bindings) idxs /\ map Ok vs = map snd bindings /\
      Forall (fun i => (i < N.of_nat (cols_len t))%N) idxs /\
      data t' = data t /\ length (header t') = length (header t) /\
      forall h, header t = [h] -> exists h', header t' = [h'] /\ length h' = length h /\
        forall j, j < length h ->
          nth_error h' j = match last_for j (combine idxs vs) with
                           | Some v => Some (ent_of_val v) | None => nth_error h j end
  | Err e => (exists r, In r (map fst bindings) /\ bad_ref t r) \/
             (exists r i, In r (map fst bindings) /\ denotes t r i /\ (N.of_nat (cols_len t) <= i)%N) \/
             In (Err e) (map snd bindings)
  | Panic => (exists r, In r (map fst bindings) /\ resolve_ref t r = Panic) \/ In Panic (map snd bindings)
  end.
Proof. exact ren_table_correct. Qed.
Print Assumptions C11_ren.

Theorem C11_ren_with : forall rowidx inty expr (t : table), rectangular t ->
  match ren_with_table rowidx inty expr t with
  | Ok t' => exists i r names, cnv_num_to_usize rowidx = Ok i /\ nth_error t (N.to_nat i) = Some r /\
      Forall2 (fun e n => ty_eqb (ty_of (val_of_ent e)) inty = true /\ expr (val_of_ent e) = Ok (VStr n)) r names /\
      header t' = [map (fun n => EObj (VStr n)) names] /\ data t' = data t
  | Err _ => forall i r names, cnv_num_to_usize rowidx = Ok i -> nth_error t (N.to_nat i) = Some r ->
      ~ Forall2 (fun e n => ty_eqb (ty_of (val_of_ent e)) inty = true /\ expr (val_of_ent e) = Ok (VStr n)) r names
  | Panic => exists i r e, cnv_num_to_usize rowidx = Ok i /\ nth_error t (N.to_nat i) = Some r /\
      In e r /\ expr (val_of_ent e) = Panic
  end.
Proof. exact ren_with_correct. Qed.
Print Assumptions C11_ren_with.

Example C11_example_pick :
  pick_table true true [lit "qty"; lit "new"] stock =
  Ok [ [S' "qty"; S' "new"; S' "name"]; [n' 7; ENil; S' "pear"]; [n' 3; ENil; S' "fig"]; [ENil; ENil; S' "pear"] ].
Proof. vm_compute. reflexivity. Qed.

(** Swapping two names. *)
Example C11_example_ren :
  ren_table [(RefName (Ok (VStr (lit "name"))), Ok (VStr (lit "qty"))); (RefName (Ok (VStr (lit "qty"))), Ok (VStr (lit "name")))] stock =
  Ok ([S' "qty"; S' "name"] :: data stock).
Proof. vm_compute. reflexivity. Qed.

Example C11_example_ren_with :
  ren_with_table (num 0) TStr (fun v => match v with VStr s => Ok (VStr (s ++ lit "_")) | _ => Err 1 end) stock =
  Ok ([S' "name_"; S' "qty_"] :: data stock).
Proof. vm_compute. reflexivity. Qed.
