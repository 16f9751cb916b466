(** C76: nothing that is written in a program is ignored. *)
From Coq Require Import String List ZArith NArith Bool Arith.
From Verif Require Import Model.Base Model.Utf Model.Ast Model.Parse Spec.ParseSpec Spec.LooseSpec Proofs.ParseSamples Proofs.LooseProofs Proofs.LooseLetters.
Import ListNotations.

(** The text of an expression that is read is, from its first to its last character, the names, words, numbers and types of the tree in order,
    with only spaces and the punctuation of the tree between. *)
Theorem C76_expression : forall k r e s, sane k -> expression k s = POk r e -> l_expr k e s.
Proof. exact uses_all. Qed.
Print Assumptions C76_expression.
Theorem C76_definition : forall k r n ity ps e s, sane k -> definition_impl k s = POk r (n, ity, ps, e) -> l_def k n ity ps e s.
Proof. exact def_uses_all. Qed.
Print Assumptions C76_definition.

(** So the letters and digits of the text are those in the tree, in the same order. *)
Theorem C76_letters : forall k r e s, sane k -> expression k s = POk r e -> letters k s = letters k (t_expr e).
Proof. exact letters_kept. Qed.
Print Assumptions C76_letters.
Theorem C76_definition_letters : forall k r n ity ps e s, sane k -> definition_impl k s = POk r (n, ity, ps, e) -> letters k s = letters k (t_def n ity ps e).
Proof. exact def_letters_kept. Qed.
Print Assumptions C76_definition_letters.

(** ** Examples *)
Example C76_example : sane ascii /\ (exists r e, expression ascii (lit "pick 'a b'$x.y:Num #t {:T len|+ 5 }") = POk r e /\ t_expr e = lit "picka bxyNumtTlen+5") /\
  (exists r e, expression ascii (lit "len --") = POk r e /\ t_expr e = lit "len--") /\
  exists r n ity ps e, definition_impl ascii (lit "def f Num (a b:Str){+ $a }") = POk r (n, ity, ps, e) /\ t_def n ity ps e = lit "deffNumabStr+a".
Proof.
  split; [exact ascii_sane|]. split; [|split].
  - do 2 eexists. split; vm_compute; reflexivity.
  - do 2 eexists. split; vm_compute; reflexivity.
  - do 5 eexists. split; vm_compute; reflexivity.
Qed.

(** Signs need not be kept: quotes and spaces can differ. *)
Example C76_signs : exists s1 s2 r1 r2 e1 e2, expression ascii s1 = POk r1 e1 /\ expression ascii s2 = POk r2 e2 /\ s1 = lit "+ 'a'" /\ s2 = lit "+a" /\ er_expr e1 = er_expr e2.
Proof. do 6 eexists. split; [|split; [|split; [reflexivity|split; [reflexivity|]]]]; vm_compute; reflexivity. Qed.
