(** Random numbers. *)
From Coq Require Import List ZArith Bool Floats.SpecFloat.
From Verif Require Import Model.Base Model.Arith.
Import ListNotations.

(** pipeline.rs:628 and 637, a draw of fastrand moved into the range *)
Definition scale (r from to : f64) : f64 := f_add (f_mul r (f_sub to from)) from.

(** pipeline.rs:642-653 [check_from_lt_to], [from >= to] on f64 *)
Definition from_lt_to (from to : f64) : bool :=
  match f_cmp from to with Some Eq | Some Gt => false | _ => true end.

Inductive rand_out := RNum (x : f64) | RTab (column : list f64).

(** pipeline.rs:583-640 [rand_intrinsic] with the values of the arguments; more than three are an error when the block is finalised.
    [uint] is cnv_num_to_uint, [draw i] the i-th number of the generator.  The table has one column, with the header rand. *)
Definition rand (uint : f64 -> res nat) (draw : nat -> f64) (args : list f64) : res rand_out :=
  match args with
  | [from; to; n] =>
      let? len := uint n in
      if from_lt_to from to then Ok (RTab (map (fun i => scale (draw i) from to) (seq 0 len))) else Err 0
  | _ =>
      let bounds := match args with [to] => (f_of_Z 0, to) | [from; to] => (from, to) | _ => (f_of_Z 0, f_of_Z 1) end in
      if from_lt_to (fst bounds) (snd bounds) then Ok (RNum (scale (draw 0) (fst bounds) (snd bounds))) else Err 0
  end.
