(** C80: typify shows what was written, with the types that were found. *)
From Coq Require Import String List ZArith NArith Bool Arith Lia.
From Verif Require Import Model.Base Model.Value Model.Ast Model.Registry Model.AstGraph Model.Annotate Spec.RegistrySpec Spec.AstGraphSpec Spec.AnnotateSpec
  Proofs.AstGraphProofs Proofs.RegistrySamples Proofs.AnnotateProofs.
Import ListNotations.

(** For an argument in the graph of an expression, the text is that of the argument, in the order written, each part with the types of its node; the recursion ends
    and nothing panics. *)
Theorem C80_shown : forall s e g cs ins outs verbose n a, init s e = Ok (g, cs) -> shows_term g n (TArg a) -> whole a ->
  exists text, (forall text', noted g ins outs verbose n a text' <-> text' = text) /\
    exists k, forall fuel, k <= fuel -> fmt g ins outs verbose fuel n = Ok text.
Proof. exact annotated_as. Qed.
Print Assumptions C80_shown.

Definition w (s : string) : term := TArg (AIdent (tg s)).
Definition five : term := TArg (ANum 5 (tg "5")).
Definition all_num (_ : nat) : option ty := Some TNum.
(** The texts of the arguments of the first op of an expression *)
Definition texts (ins : nat -> option ty) (verbose : bool) (e : expr) : res (list str) :=
  let? r := init sample e in rmapM (fmt (fst r) ins all_num verbose 20) (children (fst r) 1).

(** [get { eq 5 | = $y } ''], and the same verbosely *)
Definition noted_ex : expr := ex [blk "get" [sub [blk "eq" [five]; blk "=" [var "y"]]; w ""]].
Example C80_example :
  texts all_num false noted_ex = Ok [lit "{:Num eq 5 |:Num = $y:Num }:Num"; lit "''"] /\
  texts all_num true noted_ex = Ok [lit "{:Num eq:Num 5:Num |:Num =:Num $y:Num }:Num"; lit "'':Num"].
Proof. vm_compute. auto. Qed.
Example C80_hypotheses : exists g cs n, init sample noted_ex = Ok (g, cs) /\ In n (children g 1) /\
  let a := AExpr (ex [blk "eq" [five]; blk "=" [var "y"]]) in shows_term g n (TArg a) /\ whole a.
Proof.
  destruct (init sample noted_ex) as [[g cs]| |] eqn:E; [|vm_compute in E; discriminate|vm_compute in E; discriminate].
  pose proof (proj1 (proj2 (init_complete sample noted_ex g cs E))) as S. inversion S as [n e N F]; subst.
  inversion F as [|o b os bs Sb F' Eo Eb]; subst. inversion Sb as [o' b' t No Bo Ft]; subst. inversion Ft as [|m t' ms ts St Ft' Em Et]; subst.
  assert (O : o = 1) by (vm_compute in E; injection E as <- <-; vm_compute in Eo; congruence). subst o.
  exists g, cs, m. split; [reflexivity|]. split; [rewrite <- Em; now left|]. split; [exact St|]. apply whole_expr; [discriminate|].
  intros b [<-|[<-|[]]]; (split; [cbn; lia|]); intros a [H|[]]; injection H as <-; apply whole_leaf; discriminate.
Qed.

(** A text of several words is shown without its quotes: [eq 'a b'] and [eq a b] look the same (as would [pick 'a b'] and [pick a b], which do different things). *)
Theorem C80_quotes_refuted : exists ts ts', ts <> ts' /\ exists x, texts all_num false (ex [blk "get" [sub [blk "eq" ts]]]) = Ok [x] /\ texts all_num false (ex [blk "get" [sub [blk "eq" ts']]]) = Ok [x].
Proof. exists [w "a b"], [w "a"; w "b"]. split; [discriminate|]. eexists. split; vm_compute; reflexivity. Qed.
Print Assumptions C80_quotes_refuted.

(** Flags are left out, although they change what an op does. *)
Theorem C80_flags_refuted : exists f, exists x, texts all_num true (ex [blk "get" [sub [blk "eq" [TFlag f; five]]]]) = Ok [x] /\ texts all_num true (ex [blk "get" [sub [blk "eq" [five]]]]) = Ok [x].
Proof. exists (tg "Str"). eexists. split; vm_compute; reflexivity. Qed.
Print Assumptions C80_flags_refuted.

(** The arguments of an op are left out if its input type is not known ([typify] compiles its argument first, so there it is known). *)
Example C80_open_example : exists ts, ts <> [] /\ exists x, texts (fun _ => None) true (ex [blk "get" [sub [blk "eq" ts]]]) = Ok [x] /\ texts (fun _ => None) true (ex [blk "get" [sub [blk "eq" []]]]) = Ok [x].
Proof. exists [five]. split; [discriminate|]. eexists. split; vm_compute; reflexivity. Qed.
