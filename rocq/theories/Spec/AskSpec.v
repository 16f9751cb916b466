(** What an intrinsic asks for while it cannot be compiled yet. *)
From Coq Require Import String List NArith Bool Arith.
From Verif Require Import Model.Base Model.Value Model.Ast Model.AstGraph Model.TyBuild Model.Compile Model.ArgApi Model.Ops
  Spec.AstGraphSpec Spec.CompileSpec Spec.ArgSpec Spec.OpSpec.
From Verif Require Model.TyGraph Model.Locals.
Import ListNotations.

Section Must.
Variables (P : Type) (g : graph) (rep : tkey -> ty).
Notation comp := (comp P binding cparam).
(** The state in which it asks, and one in which it compiles. *)
Variables c c' : comp.

(** What is given to [n] is a [t], or may be anything. *)
Definition accepts (n : nat) (t : tkey) : Prop := typed c' n TyGraph.In_ t \/ kn c' n TyGraph.In_ = Some TyGraph.Any.
(** The block [k] of [o], with an input of type [t] and the arguments [ns], returns a [u]: what it may ask for is what is so when it compiles.
    ([ren] asks for strings where it takes numbers as well; that it may do so has to be said here.) *)
Definition must (k : nat) (o : op) (t : tkey) (ns : list nat) (u : tkey) (a : ask) : Prop :=
  match a with
  | AskInput m v => exists n, In n ns /\ stands g c n m /\ accepts n v
  | AskObliged n v => In n ns /\ ((o = OLet /\ exists m x, stands g c' n m /\ node g m = Some (NVar x)) \/ accepts n v)
  | AskReturns m v => exists n, In n ns /\ stands g c n m /\ (typed c' n TyGraph.Out_ v \/ (o = ORen /\ v = KStr /\ typed c' n TyGraph.Out_ KNum))
  | AskOutput b v => b = k /\ v = u
  | AskAnon v => o = OTuple /\ v = u
  | AskVar x v n =>
      (In o [OFold; OFoldWhile; OMap] /\ x = lit "row" /\ v = TTabRow /\ In n ns) \/
      (o = OLet /\ exists m m' y b w, In m ns /\ stands g c m m' /\ node g m' = Some (NVar y) /\ x = tg_str y /\ In m' (children g b) /\ next_block g b n /\
       v = rep w /\ (w = t \/ exists n', In n' ns /\ typed c' n' TyGraph.Out_ w))
  | AskLazy _ _ _ => False
  | AskSeal b => In o [OFold; OMap; OLet] /\ b = k
  | AskBreak b n => (o = OLet /\ b = k /\ In n ns) \/ (In o [OFold; OMap] /\ In n (children g b) /\ exists m, In m ns /\ stands g c m n)
  end.
End Must.
