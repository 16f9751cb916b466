(** C49: the input buffer is an ideal editor. *)
From Coq Require Import String List NArith Bool.
From Verif Require Import Model.Base Model.Utf Model.Shell Spec.ShellSpec Proofs.EditProofs.
Import ListNotations.

(** Every sequence of edits from the empty buffer succeeds (no panic), and the buffer shows exactly what
    the ideal editor holds: text before the cursor, text after it. *)
Theorem C49_ideal : forall alnum ops, exists b z,
  edit_steps alnum ops input_new = Ok b /\ shows b z /\ ideal_edits (in_word alnum) ops ([], []) z.
Proof. exact editor_correct. Qed.
Print Assumptions C49_ideal.

(** The ideal editor is deterministic, so the above determines the buffer. *)
Theorem C49_ideal_unique : forall wc op x y z, ideal_edit wc op x y -> ideal_edit wc op x z -> y = z.
Proof. exact ideal_edit_unique. Qed.
Print Assumptions C49_ideal_unique.

(** The byte position reported is a character boundary, and splits the text at the cursor. *)
Theorem C49_boundary : forall b z, shows b z -> exists n, input_buf_pos b = Ok n /\
  take_bytes n (ib_buf b) = Some (fst z) /\ drop_bytes n (ib_buf b) = Some (snd z).
Proof. exact buf_pos_boundary. Qed.
Print Assumptions C49_boundary.

(** Inserting then deleting is the identity. *)
Theorem C49_insert_backspace : forall c b z, shows b z ->
  exists b', input_insert c b = Ok b' /\ input_backspace b' = Ok b.
Proof. exact insert_backspace. Qed.
Print Assumptions C49_insert_backspace.

(** Typing "get é", word left, delete, "x", right, backspace. *)
Example C49_example :
  let alnum c := ((97 <=? c) && (c <=? 122) || (c =? 233))%N in
  let ops := [InsertStr (lit "get "); Insert 233%N; MoveLeft Word; MoveLeft Word; Delete; Insert 120%N; MoveRight Word; MoveRight (Ch 9); Backspace] in
  edit_steps alnum ops input_new = Ok (InputBuffer (lit "xet ") 4) /\
  (exists b, edit_steps alnum (firstn 3 ops) input_new = Ok b /\ ib_pos b = 4 /\ input_buf_pos b = Ok 4) /\
  (exists b, edit_steps alnum (firstn 2 ops) input_new = Ok b /\ ib_pos b = 5 /\ input_buf_pos b = Ok 6).
Proof. vm_compute. eauto 10. Qed.
