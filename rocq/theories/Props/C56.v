(** C56: the word at a position of a line. *)
From Coq Require Import String List ZArith NArith Bool Arith Permutation.
From Verif Require Import Model.Base Model.Utf Model.Ast Model.Parse Model.Highlight Spec.ParseSpec Spec.LexSpec Proofs.ParseSamples Proofs.NodeAtProofs Proofs.BlockRange.
Import ListNotations.

(** Going down the tree by spans finds the word over the position if there is one, and there is at most one. *)
Theorem C56_expression : forall k line r e, expression k line = POk r e -> Forall plain_op (expr_ops e) -> forall pos,
  exists ls x, leaves_expr e = Ok ls /\ at_expr pos e = Ok x /\ at_position ls pos x.
Proof. exact at_expression. Qed.
Print Assumptions C56_expression.

(** In a definition everything before the name counts as the [def]. *)
Theorem C56_definition : forall k line r d, definition_impl k line = POk r d -> Forall plain_op (expr_ops (snd d)) -> forall pos,
  exists ls x, leaves_def line d = Ok ls /\ at_def line pos d = Ok x /\
    if Nat.ltb pos (N.to_nat (tg_s (fst (fst (fst d))))) then x = Some (NCommand, def_word line (fst (fst (fst d)))) else at_position ls pos x.
Proof. exact at_definition. Qed.
Print Assumptions C56_definition.

(** The range of a block, which decides whether it is looked into, is the least one that its parts are in, from the type of its input to
    its last term; all of its words are in it, names of types included. *)
Theorem C56_blocks : forall k line r e, expression k line = POk r e -> Forall plain_op (expr_ops e) ->
  Forall (fun b => spans (block_range b) (block_parts b) /\
                   Forall (fun x => fst (block_range b) <= N.to_nat (tg_s (snd x)) /\ N.to_nat (tg_e (snd x)) <= snd (block_range b)) (block_words b)) (expr_blocks e).
Proof. exact expression_blocks. Qed.
Print Assumptions C56_blocks.

Definition at_line (k : lang) (line : str) (pos : nat) : res (option (ntype * str)) :=
  match expression k line with
  | POk _ e => let? x := at_expr pos e in Ok (option_map (fun x => (fst x, tg_str (snd x))) x)
  | _ => Err 0
  end.
Definition sample : str := lit "ls | get:Num $a.b {len #i}".
Example C56_example :
  map (at_line ascii sample) [1; 3; 6; 10; 13; 14; 15; 16; 18; 20; 23; 25; 40] =
  map (@Ok _) [Some (NCommand, lit "ls"); None; Some (NCommand, lit "get"); None; None; Some (NVar, lit "a"); Some (NCommand, lit "."); Some (NIdent, lit "b");
               None; Some (NCommand, lit "len"); Some (NPound, lit "#i"); None; None].
Proof. reflexivity. Qed.
Example C56_blocks_example : exists r e, expression ascii (lit "ls | :Table get:Num $a.b {len}") = POk r e /\ Forall plain_op (expr_ops e) /\
  map block_range (expr_blocks e) = [(0, 2); (5, 30); (20, 24); (26, 29)].
Proof. do 2 eexists. split; [reflexivity|]. split; [|vm_compute; reflexivity]. vm_compute. repeat constructor. Qed.

(** Asking for the word at a position of an op written as a path panics. *)
Theorem C56_path_refuted : exists line r e pos, expression ascii line = POk r e /\ at_expr pos e = Panic.
Proof. exists (lit "get 3 | a/get 3"), []. do 2 eexists. split; [reflexivity|]. instantiate (1 := 9). reflexivity. Qed.
Print Assumptions C56_path_refuted.
