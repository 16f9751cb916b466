(** C06: the entry order used for sorting is a total preorder. *)
From Coq Require Import String List ZArith NArith.
From Verif Require Import Model.Base Model.Value Model.TableCrate Model.TableOps
  Spec.SortSpec Spec.OpsSpec Proofs.SortProofs Proofs.Samples.
Import ListNotations.

Theorem C06_total : total_preorder cmp_table_entries.
Proof. exact cmp_table_entries_total. Qed.
Print Assumptions C06_total.

(** The order is that of [sort_key]: kind first, then the content for the comparable kinds. *)
Theorem C06_key : forall a b, cmp_table_entries a b = key_cmp (sort_key a) (sort_key b).
Proof. exact cmp_table_entries_key. Qed.
Print Assumptions C06_key.

Theorem C06_text : forall a b, str_cmp a b = Lt <-> text_before a b.
Proof. exact str_cmp_lex. Qed.
Print Assumptions C06_text.

Example C06_example :
  cmp_table_entries (EObj (VBool false)) (EObj (VBool true)) = Lt /\
  cmp_table_entries (EObj (VBool true)) (n' (-5)) = Lt /\
  cmp_table_entries (n' 100) (S' "0") = Lt /\
  cmp_table_entries (S' "zzz") ENil = Lt /\
  cmp_table_entries (S' "b") (S' "abc") = Gt /\
  cmp_table_entries (EObj (VNum (num_of_Z 3))) (n' 3) = Eq.
Proof. repeat split; vm_compute; reflexivity. Qed.
