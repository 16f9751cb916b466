(** Batches from the text of a file. *)
From Coq Require Import List NArith Bool.
From Verif Require Import Model.Base Model.Parse Model.File Model.Batch Model.CommandLine.
Import ListNotations.

Definition no_parallelise (d : directive) : bool := match d with NoParallelise => true | _ => false end.
Definition fail_fast (d : directive) : bool := match d with FailFast => true | _ => false end.
Definition item_of (t : item_type) (i : File.item) : nat * Batch.item := (N.to_nat (File.it_line i), Batch.Item (File.it_code i) t).

(** ogma/src/rt/bat.rs:95-137 [parse_str]; comments and the name of the file are left out *)
Definition parse_str (k : lang) (text : str) : res batch :=
  let? f := parse_file k text in
  Ok (MkBatch (negb (existsb no_parallelise (fl_dirs f))) (existsb fail_fast (fl_dirs f))
       (map (fun x => item_of IType (snd x)) (fl_types f) ++ map (fun x => item_of IImpl (snd x)) (fl_impls f) ++
        map (item_of IExpr) (fl_exprs f))).
