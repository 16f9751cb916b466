(** C10: append, append-row and map change only what they name. *)
From Coq Require Import String List ZArith NArith Arith Permutation.
From Verif Require Import Model.Base Model.Value Model.TableCrate Model.RowPar Model.TableOps
  Spec.TableSpec Spec.ParSpec Spec.ColSpec Spec.OpsSpec Proofs.AppendProofs Proofs.Samples.
Import ListNotations.

(** Each row is kept and gets one extra entry per expression, on the right. *)
Theorem C10_append : forall C (cols : list (column_job C)) init scheds order (t : table),
  rectangular t ->
  (forall ev name g, In ((ev, name), g) cols -> row_function ev init g) ->
  length scheds = length cols -> Forall (complete_schedule (length t)) scheds ->
  Permutation order (seq 0 (length cols)) ->
  match append_table (map fst cols) init scheds order t with
  | Ok t' => length t' = length t /\
      forall i r, nth_error t i = Some r -> exists extra,
        nth_error t' i = Some (r ++ extra) /\
        (i = 0 -> extra = map (fun c => EObj (VStr (snd (fst c)))) cols) /\
        (1 <= i -> map Ok extra = map (fun c => rmap ent_of_val (snd c i)) cols)
  | Err e => exists c i, In c cols /\ 1 <= i <= length (data t) /\ snd c i = Err e
  | Panic => exists c i, In c cols /\ 1 <= i <= length (data t) /\ snd c i = Panic
  end.
Proof. exact append_table_outcome. Qed.
Print Assumptions C10_append.

(** Names come from the tags in order, then are numbered. *)
Theorem C10_append_names : forall n flags auto k, k < n ->
  nth_error (append_names n flags auto) k =
  Some (match nth_error flags k with
        | Some f => f
        | None => lit "_append" ++ dec (auto + (k - length flags))
        end).
Proof. exact append_names_spec. Qed.
Print Assumptions C10_append_names.

(** A table without a header takes the values as its header. *)
Theorem C10_append_row : forall vals (t : table), rectangular t ->
  match append_row vals t with
  | Ok t' => exists vs, map Ok vs = vals /\
      let new := map ent_of_val vs in
      let w := Nat.max (cols_len t) (length vs) in
      data t' = (match t with [] => [] | _ => map (widen w) (data t) ++ [widen w new] end) /\
      header t' = [name_nils 1 (widen w (match t with [] => new | h :: _ => h end))]
  | Err e => In (Err e) vals
  | Panic => In Panic vals
  end.
Proof. exact append_row_correct. Qed.
Print Assumptions C10_append_row.

(** In the header only nil cells are renamed. *)
Theorem C10_append_row_header : forall h i j,
  nth_error (name_nils i h) j =
  match nth_error h j with
  | Some ENil => Some (EObj (VStr (lit "_append" ++ dec (i + nils_before j h))))
  | x => x
  end.
Proof. exact name_nils_spec. Qed.
Print Assumptions C10_append_row_header.

Theorem C10_map : forall C (tf : C -> nat -> value -> res value * C) init G sched force in_ty name (t : table),
  rectangular t -> row_function_in tf init G -> complete_schedule (length t) sched ->
  match map_table tf init sched force in_ty name t with
  | Ok t' => exists n j, name = Ok (VStr n) /\ column_named t n j /\
      header t' = header t /\ length t' = length t /\
      forall i r, 1 <= i -> nth_error t i = Some r -> exists v,
        map_result G force in_ty j t i = Ok v /\ nth_error t' i = Some (set_nth j (ent_of_val v) r)
  | Err e => name = Err e \/ (exists v, name = Ok v /\ ty_of v <> TStr) \/
      (exists n, name = Ok (VStr n) /\ (no_column_named t n \/
         exists j i, column_named t n j /\ 1 <= i < length t /\ map_result G force in_ty j t i = Err e))
  | Panic => name = Panic \/ exists n j i, name = Ok (VStr n) /\ column_named t n j /\ 1 <= i < length t /\
         map_result G force in_ty j t i = Panic
  end.
Proof. exact map_table_outcome. Qed.
Print Assumptions C10_map.

Example C10_example_append :
  let g := fun i => Ok (num (Z.of_nat i)) in
  let ev := fun (c : unit) i => (g i, c) in
  rectangular stock /\ row_function ev tt g /\ Forall (complete_schedule (length stock)) [stock_sched; stock_sched] /\
  Permutation [1; 0] (seq 0 2) /\
  append_table [(ev, lit "i"); (ev, lit "j")] tt [stock_sched; stock_sched] [1; 0] stock =
  Ok [ [S' "name"; S' "qty"; S' "i"; S' "j"];
       [S' "pear"; n' 7; n' 1; n' 1];
       [S' "fig";  n' 3; n' 2; n' 2];
       [S' "pear"; ENil; n' 3; n' 3] ].
Proof.
  cbv zeta. split; [exact stock_rect|]. split; [apply pure_row_function|].
  split; [repeat constructor; exact stock_sched_complete|]. split; [apply perm_swap|]. vm_compute. reflexivity.
Qed.

Example C10_example_append_row :
  append_row [Ok (VStr (lit "nut")); Ok (num 1); Ok (VBool true)] [[S' "name"]; [S' "pear"]] =
  Ok [ [S' "name"; S' "_append1"; S' "_append2"];
       [S' "pear"; ENil; ENil];
       [S' "nut"; n' 1; EObj (VBool true)] ].
Proof. vm_compute. reflexivity. Qed.

Example C10_example_map :
  let G := fun (i : nat) (v : value) => match v with VStr s => Ok (VStr (s ++ lit "!")) | _ => Err 1 end in
  row_function_in (fun (c : unit) i v => (G i v, c)) tt G /\
  map_table (fun (c : unit) i v => (G i v, c)) tt stock_sched false TStr (Ok (VStr (lit "name"))) stock =
  Ok [ [S' "name"; S' "qty"]; [S' "pear!"; n' 7]; [S' "fig!"; n' 3]; [S' "pear!"; ENil] ].
Proof. cbv zeta. split; [exists (fun _ => True); cbn; auto|]. vm_compute. reflexivity. Qed.

(** On a table without rows the appended row becomes the header. *)
Theorem C10_append_row_empty_refuted : exists vals t', append_row vals [] = Ok t' /\ data t' = [] /\ header t' <> [].
Proof. exists [Ok (num 1)]. eexists. split; [vm_compute; reflexivity|]. split; [reflexivity|discriminate]. Qed.
Print Assumptions C10_append_row_empty_refuted.
