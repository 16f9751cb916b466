(** C70: what [ls] lists. *)
From Coq Require Import String List ZArith NArith Bool Arith.
From Verif Require Import Model.Base Model.Value Model.TableCrate Model.Listing Spec.SortSpec Spec.ListingSpec Proofs.SortProofs Proofs.ListingProofs.
Import ListNotations.

(** [ls] has a row for each item of the directory that can be read and no other, in order of their names, under a header. *)
Theorem C70_ls : forall so, sort_contract so -> forall items,
  match make_dir_table so items with
  | Ok t => exists l rows out, items = Some l /\ t = map (fun x => EObj (VStr (lit x))) ["name"; "type"; "size"; "ext"; "modified"]%string :: out /\
      Forall2 listed (present l) rows /\ is_stable_sort by_name rows out
  | Err _ => items = None
  | Panic => False
  end.
Proof. exact listing_ok. Qed.
Print Assumptions C70_ls.

(** What the row is, is determined by the item. *)
Theorem C70_row : forall d r s, listed d r -> listed d s -> r = s.
Proof. exact listed_fun. Qed.
Print Assumptions C70_row.

(** On a table [ls] lists the first row; a table without rows is an error. *)
Theorem C70_header : forall t, match t with
  | [] => exists e, ls_table t = Err e
  | r :: _ => ls_table t = Ok ([EObj (VStr (lit "header"))] :: map (fun x => [x]) r)
  end.
Proof. exact ls_table_ok. Qed.
Print Assumptions C70_header.

Definition text (x : string) (n : N) : option dirent := Some (Dirent (inl (lit x)) (Some (Meta false true n (Some (lit "2023.01.27 1000"))))).
Example C70_example : make_dir_table isort (Some [text "b.tar.gz" 3; None; text ".bashrc" 0; Some (Dirent (inl (lit "a")) (Some (Meta true false 4096 None))); Some (Dirent (inr (Some (lit "txt"))) None)]) =
  Ok [[o (lit "name"); o (lit "type"); o (lit "size"); o (lit "ext"); o (lit "modified")];
      [o []; ENil; ENil; ENil; ENil];
      [o (lit ".bashrc"); o (lit "file"); ENum 0; ENil; o (lit "2023.01.27 1000")];
      [o (lit "a"); o (lit "dir"); ENum (num_of_Z 4096); ENil; ENil];
      [o (lit "b.tar.gz"); o (lit "file"); ENum (num_of_Z 3); o (lit "gz"); o (lit "2023.01.27 1000")]].
Proof. vm_compute. reflexivity. Qed.
