(** Concrete files and standard library functions for the examples. *)
From Coq Require Import String List NArith Arith Lia Bool.
From Verif Require Import Model.Base Model.TableCrate Model.Parts Spec.PartsSpec.
Import ListNotations.

Fixpoint prefix_len (A : Type) (f : A -> bool) (l : list A) : nat :=
  match l with [] => 0 | x :: l => if f x then S (prefix_len A f l) else 0 end.
Lemma prefix_len_contract : partition_contract prefix_len.
Proof.
  intros A f a b HA HB. induction a as [|x a IH]; cbn.
  - destruct b as [|y b]; auto. cbn. now rewrite HB by now left.
  - rewrite HA by now left. rewrite IH; auto. intros y Hy. apply HA. now right.
Qed.
(** ["*"] matches everything, ["["] is invalid, anything else matches itself. *)
Definition sample_glob (pat : str) : option (str -> bool) :=
  if str_eqb pat (lit "[") then None
  else Some (fun s => str_eqb pat (lit "*") || str_eqb pat s).
Definition same_order (m : list (nat * list str)) := m.

Definition rel (path : list str) (g : str) := Import PxNone path g.
Definition shapes : list (list str * list pfile) :=
  [ ([lit "shapes"; lit "flat"],
     [PFile [DExport [lit "*"]] [lit "Point"] [lit "area"]; PFile [] [lit "Line"] [lit "area"]]);
    ([lit "app"],
     [PFile [DImport [rel [lit ".."; lit "shapes"; lit "flat"] (lit "*")]] [] [lit "main"]]) ].
