(** C69: what is saved can be read back. *)
From Coq Require Import String List ZArith NArith Bool Arith.
From Verif Require Import Model.Base Model.Value Model.SaveText Spec.SaveSpec Proofs.SaveTextProofs.
Import ListNotations.
Open Scope N_scope.

(** A table that has rows and columns is saved as comma separated values, in which what is between quotes has backslashes as in the
    literals of Rust.  Read as such, the file is the texts of the table. *)
Theorem C69_reads : forall printable extends num ogma t, t <> [] -> Forall (fun r => r <> []) t ->
  file slashed (write_table printable extends num ogma t) (texts num ogma t).
Proof. exact file_ok. Qed.
Print Assumptions C69_reads.

(** There is no other way to read it: *)
Theorem C69_unique : forall w g1 g2, file slashed w g1 -> file slashed w g2 -> g1 = g2.
Proof. exact slashed_unique. Qed.
Print Assumptions C69_unique.

(** Each row is a line, and there are no other ends of lines, whatever is in the cells. *)
Theorem C69_lines : forall printable extends num ogma t, t <> [] ->
  S (times 10 (write_table printable extends num ogma t)) = length t /\ times 13 (write_table printable extends num ogma t) = O.
Proof. exact lines_ok. Qed.
Print Assumptions C69_lines.

(** A reader of RFC 4180, for which quotes are doubled and backslashes mean nothing, gets the texts of the table just if no cell has both
    something for which it is quoted, and something that is escaped. *)
Theorem C69_standard : forall printable extends num ogma t, t <> [] -> Forall (fun r => r <> []) t ->
  (file doubled (write_table printable extends num ogma t) (texts num ogma t) <->
   forall r e, In r t -> In e r -> plain (text_of num ogma (val_of_ent e)) \/ ~ has_escaped printable extends (text_of num ogma (val_of_ent e))).
Proof. exact standard_iff. Qed.
Print Assumptions C69_standard.
Theorem C69_standard_unique : forall w g1 g2, file doubled w g1 -> file doubled w g2 -> g1 = g2.
Proof. exact doubled_unique. Qed.
Print Assumptions C69_standard_unique.

(** What is no table is saved as its text, without quotes; nil as a dash. *)
Theorem C69_value : forall printable extends num ogma v, (forall t, v <> VTab t) ->
  write_file printable extends num ogma v = match v with VNil => lit "-" | _ => text_of num ogma v end.
Proof. intros p x n g [|[|]| | |t| |] H; try reflexivity. destruct (H t). reflexivity. Qed.
Print Assumptions C69_value.

(** ** Examples *)
Definition ascii (c : N) : bool := (32 <=? c) && (c <? 127).
Definition save := write_table ascii (fun _ => false) (fun _ => lit "1.5") (fun _ => []).
(** of io.rs:426-444 *)
Example C69_example : save [[ENum 1; ENum 1; ENil]; [o (lit "foo"); ENil; o (lit "foo" ++ [10] ++ lit "bar")]; [ENum 1; o (lit "foo,bar"); o (lit "foo " ++ [34] ++ lit "zog" ++ [34] ++ lit " bar")]] =
  lit "1.5,1.5," ++ [10] ++ lit "foo,," ++ [34] ++ lit "foo\nbar" ++ [34; 10] ++ lit "1.5," ++ [34] ++ lit "foo,bar" ++ [34; 44; 34] ++ lit "foo \" ++ [34] ++ lit "zog\" ++ [34] ++ lit " bar" ++ [34].
Proof. vm_compute. reflexivity. Qed.
Example C69_unicode : save [[o [233; 44]]] = [34; 92; 117; 123; 101; 57; 125; 44; 34].
Proof. vm_compute. reflexivity. Qed.
Example C69_standard_example : plain (lit "foo") /\ ~ plain (lit "foo,bar") /\ ~ has_escaped ascii (fun _ => false) (lit "foo,bar") /\ has_escaped ascii (fun _ => false) (lit "it's").
Proof.
  split; [|split; [|split]].
  - intros c I S. cbn in I. repeat (destruct I as [<-|I]; [cbn in S; repeat (destruct S as [S|S]; [discriminate|]); destruct S|]). destruct I.
  - intros P. apply (P 44); cbn; tauto.
  - intros (i & c & I & E). do 7 (destruct i as [|i]; [cbn in I; injection I as <-; destruct E as [E|[E|(_ & E)]]; [cbn in E; repeat (destruct E as [E|E]; [discriminate|]); destruct E|discriminate|discriminate]|]).
    destruct i; discriminate.
  - exists 2%nat, 39. split; [reflexivity|]. left. cbn. tauto.
Qed.

(** A cell of two lines is read by a standard reader as one line with a backslash and an n in it, and one with [it's, ok] in it has a backslash
    more than it had. *)
Theorem C69_standard_refuted : exists s, let t := [[o s]] in
  ~ file doubled (save t) (texts (fun _ => lit "1.5") (fun _ => []) t) /\ exists s', file doubled (save t) [[s']] /\ s = lit "a" ++ [10] ++ lit "b" /\ s' = lit "a\nb".
Proof.
  exists (lit "a" ++ [10] ++ lit "b"). cbn zeta.
  assert (F : file doubled (save [[o (lit "a" ++ [10] ++ lit "b")]]) [[lit "a\nb"]]).
  { change (save [[o (lit "a" ++ [10] ++ lit "b")]]) with ([34] ++ lit "a\nb" ++ [34]). apply file_last, line_last, field_quoted.
    cbn. repeat (apply doubled_char; [discriminate|]). apply doubled_end. }
  split; [|eauto]. intros H. pose proof (C69_standard_unique _ _ _ H F) as E. discriminate.
Qed.
Print Assumptions C69_standard_refuted.

(** A cell without a value and one with an empty string are saved as the same, and so are the table of one such cell and the table without
    any; nil is saved as a dash is. *)
Theorem C69_nil_refuted : save [[ENil]] = save [[o []]] /\ save [[ENil]] = save [] /\
  write_file ascii (fun _ => false) (fun _ => []) (fun _ => []) VNil = write_file ascii (fun _ => false) (fun _ => []) (fun _ => []) (VStr (lit "-")).
Proof. repeat split. Qed.
Print Assumptions C69_nil_refuted.
