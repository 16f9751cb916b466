(** C13: adding tables keeps every cell and gives the documented size. *)
From Coq Require Import String List ZArith NArith Bool Arith.
From Verif Require Import Model.Base Model.Value Model.TableCrate Model.TableOps
  Spec.TableSpec Spec.ColSpec Spec.OpsSpec Proofs.AddTableProofs Proofs.Samples.
Import ListNotations.

(** By rows, union.  The header is that of the first table, continued by that of the second one.
    If the second table is wider and has no data rows the command panics. *)
Theorem C13_rows_union : forall prev next : table, rectangular prev -> rectangular next ->
  match prev with
  | [] => add_table_by_row false prev next = Ok next
  | hp :: dp =>
      if (length hp <? cols_len next) && is_empty (data next)
      then add_table_by_row false prev next = Panic
      else let w := Nat.max (length hp) (cols_len next) in
           add_table_by_row false prev next =
           Ok ((hp ++ match next with [] => [] | hn :: _ => skipn (length hp) hn end) ::
               map (widen w) (dp ++ data next))
  end.
Proof. exact add_by_row_union. Qed.
Print Assumptions C13_rows_union.

Theorem C13_rows_intersect : forall prev next : table, rectangular prev -> rectangular next ->
  add_table_by_row true prev next =
  Ok (map (firstn (Nat.min (cols_len prev) (cols_len next))) (prev ++ data next)).
Proof. exact add_by_row_intersect. Qed.
Print Assumptions C13_rows_intersect.

Theorem C13_cols_union : forall prev next : table, rectangular prev -> rectangular next ->
  let n := if cols_len next =? 0 then length prev else Nat.max (length prev) (length next) in
  length (add_table_by_col false prev next) = n /\
  forall i, i < n -> nth_error (add_table_by_col false prev next) i =
    Some (widen (cols_len prev) (nth i prev []) ++ widen (cols_len next) (nth i next [])).
Proof. exact add_by_col_union. Qed.
Print Assumptions C13_cols_union.

Theorem C13_cols_intersect : forall prev next : table, rectangular prev -> rectangular next ->
  let n := Nat.min (length prev) (length next) in
  length (add_table_by_col true prev next) = n /\
  forall i, i < n -> exists rp rn, nth_error prev i = Some rp /\ nth_error next i = Some rn /\
    nth_error (add_table_by_col true prev next) i = Some (rp ++ rn).
Proof. exact add_by_col_intersect. Qed.
Print Assumptions C13_cols_intersect.

(** Any number of tables by rows: all data rows, in order, padded to the largest width. *)
Theorem C13_rows_chain : forall ts (t : table), rectangular t -> t <> [] ->
  (forall u, In u ts -> rectangular u /\ data u <> []) ->
  exists h, add_chain true false t ts =
    Ok (h :: map (widen (max_cols (t :: ts))) (flat_map data (t :: ts))) /\
    length h = max_cols (t :: ts).
Proof. exact add_chain_row_union. Qed.
Print Assumptions C13_rows_chain.

Definition extra : table := [ [S' "x"; S' "y"; S' "z"]; [n' 1; n' 2; n' 3] ].

Example C13_example : rectangular stock /\ rectangular extra /\
  add_table2 true false stock extra =
    Ok [ [S' "name"; S' "qty"; S' "z"]; [S' "pear"; n' 7; ENil]; [S' "fig"; n' 3; ENil]; [S' "pear"; ENil; ENil];
         [n' 1; n' 2; n' 3] ] /\
  add_table2 true true stock extra = Ok (stock ++ [[n' 1; n' 2]]) /\
  add_table2 false true stock extra =
    Ok [ [S' "name"; S' "qty"; S' "x"; S' "y"; S' "z"]; [S' "pear"; n' 7; n' 1; n' 2; n' 3] ] /\
  add_chain true false stock [extra; stock] = 
    Ok [ [S' "name"; S' "qty"; S' "z"]; [S' "pear"; n' 7; ENil]; [S' "fig"; n' 3; ENil]; [S' "pear"; ENil; ENil];
         [n' 1; n' 2; n' 3]; [S' "pear"; n' 7; ENil]; [S' "fig"; n' 3; ENil]; [S' "pear"; ENil; ENil] ].
Proof.
  split; [exact stock_rect|]. split; [apply rect_b_ok; reflexivity|]. repeat split; vm_compute; reflexivity.
Qed.

(** Adding a wider table that has only a header: panic, where a wider header was expected. *)
Theorem C13_header_only_refuted : exists prev next, rectangular prev /\ rectangular next /\ prev <> [] /\
  add_table2 true false prev next = Panic.
Proof.
  exists [[S' "a"]], [[S' "x"; S' "y"]]. split; [apply rect_b_ok; reflexivity|].
  split; [apply rect_b_ok; reflexivity|]. split; [discriminate|reflexivity].
Qed.
Print Assumptions C13_header_only_refuted.

(** Intersecting with the empty table by rows does not give the empty table: rows of no width. *)
Theorem C13_intersect_empty_refuted : exists next t, rectangular next /\
  add_table2 true true [] next = Ok t /\ t = [[]; []; []].
Proof. exists stock. eexists. split; [exact stock_rect|]. split; [vm_compute; reflexivity|reflexivity]. Qed.
Print Assumptions C13_intersect_empty_refuted.
