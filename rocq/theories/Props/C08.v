(** C08: grp partitions the data rows by key. *)
From Coq Require Import String List ZArith NArith.
From Verif Require Import Model.Base Model.Value Model.TableCrate Model.TableOps
  Spec.SortSpec Spec.TableSpec Spec.ColSpec Spec.GroupSpec Spec.OpsSpec Proofs.GrpProofs Proofs.Samples.
Import ListNotations.

(** [fmt] is the text of a cell; keys are these texts joined by a hyphen. *)
Theorem C08_grp : forall fmt names (t : table), rectangular t ->
  match grp_table fmt names t with
  | Ok t' => exists h d cols groups, t = h :: d /\ Forall2 (column_named t) names cols /\
      is_grouping str_cmp (map (fun r => (group_key fmt cols r, r)) d) h groups /\
      t' = [EObj (VStr (lit "key")); EObj (VStr (lit "value"))] ::
           map (fun g => [EObj (VStr (fst g)); EObj (VTab (snd g))]) groups
  | Err _ => t = [] \/ exists n, In n names /\ no_column_named t n
  | Panic => False
  end.
Proof. exact grp_table_correct. Qed.
Print Assumptions C08_grp.

Definition text (e : ent) : str :=
  match e with EObj (VStr s) => s | ENil => lit "-" | _ => lit "#" end.

Example C08_example : rectangular stock /\
  grp_table text [lit "name"] stock =
  Ok [[S' "key"; S' "value"];
      [S' "fig"; EObj (VTab [[S' "name"; S' "qty"]; [S' "fig"; n' 3]])];
      [S' "pear"; EObj (VTab [[S' "name"; S' "qty"]; [S' "pear"; n' 7]; [S' "pear"; ENil]])]].
Proof. split; [exact stock_rect|vm_compute; reflexivity]. Qed.

(** Rows with different keys can be put together, since joining is not injective. *)
Theorem C08_key_collision_refuted : exists t r1 r2,
  rectangular t /\ In r1 (data t) /\ In r2 (data t) /\ r1 <> r2 /\
  group_key text [0; 1] r1 = group_key text [0; 1] r2 /\
  exists u, grp_table text [lit "a"; lit "b"] t = Ok u /\ length (data u) = 1.
Proof.
  exists [[S' "a"; S' "b"]; [S' "x-y"; S' "z"]; [S' "x"; S' "y-z"]], [S' "x-y"; S' "z"], [S' "x"; S' "y-z"].
  split; [apply rect_b_ok; reflexivity|]. split; [cbn; auto|]. split; [cbn; auto|].
  split; [discriminate|]. split; [reflexivity|]. eexists. split; vm_compute; reflexivity.
Qed.
Print Assumptions C08_key_collision_refuted.
