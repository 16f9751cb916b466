(** C05: sort returns a stable ordered permutation with the header in place. *)
From Coq Require Import String List ZArith NArith.
From Verif Require Import Model.Base Model.Value Model.TableCrate Model.TableOps
  Spec.SortSpec Spec.TableSpec Spec.ColSpec Spec.OpsSpec Proofs.SortProofs Proofs.Summary1 Proofs.Samples.
Import ListNotations.

(** [lex_cmp (rev ..)]: the last column named is the most significant. *)
Theorem C05_sort : forall so, sort_contract so -> forall names (t : table),
  match sort_table so names t with
  | Ok t' => exists cols, Forall2 (column_named t) names cols /\
       header t' = header t /\
       is_stable_sort (lex_cmp (rev (map by_column cols))) (data t) (data t')
  | Err e => exists n, In n names /\ no_column_named t n
  | Panic => False
  end.
Proof. exact sort_table_full. Qed.
Print Assumptions C05_sort.

(** The conditions of a stable sort leave one possibility, so the sort algorithm does not matter. *)
Theorem C05_unique : forall A (cmp : A -> A -> comparison) l m n,
  total_preorder_on (fun x => In x l) cmp ->
  is_stable_sort cmp l m -> is_stable_sort cmp l n -> m = n.
Proof. exact stable_sort_unique. Qed.
Print Assumptions C05_unique.

Theorem C05_contract_satisfiable : sort_contract isort.
Proof. exact isort_contract. Qed.
Print Assumptions C05_contract_satisfiable.

Example C05_example :
  sort_table isort [lit "qty"; lit "name"] stock =
    Ok [[S' "name"; S' "qty"]; [S' "fig"; n' 3]; [S' "pear"; n' 7]; [S' "pear"; ENil]] /\
  sort_table isort [lit "name"; lit "qty"] stock =
    Ok [[S' "name"; S' "qty"]; [S' "fig"; n' 3]; [S' "pear"; n' 7]; [S' "pear"; ENil]] /\
  sort_table isort [lit "qty"] stock =
    Ok [[S' "name"; S' "qty"]; [S' "fig"; n' 3]; [S' "pear"; n' 7]; [S' "pear"; ENil]] /\
  sort_table isort [lit "colour"] stock = Err 11.
Proof. repeat split; vm_compute; reflexivity. Qed.
