(** C29: type resolution terminates. *)
From Coq Require Import List Bool Arith.
From Verif Require Import Model.Base Model.TyGraph Spec.TyGraphSpec Proofs.TyGraphProofs Proofs.ResolveProofs.
Import ListNotations.

(** The loop ends after at most one more round than there are edges that have not flowed, for any graph at all. *)
Theorem C29_stops : forall T (eqb : T -> T -> bool) fuel s, length (pending s) < fuel -> resolve_tg eqb fuel s <> None.
Proof. exact resolve_stops. Qed.
Print Assumptions C29_stops.

(** So with one round per edge and one more it always ends, and the outcome does not depend on the number of rounds
    granted. *)
Theorem C29_always : forall T (eqb : T -> T -> bool) s fuel, length (edges (fst s)) < fuel ->
  exists x, resolve_tg eqb fuel s = Some x /\ forall more, resolve_tg eqb (fuel + more) s = Some x.
Proof. exact resolve_always. Qed.
Print Assumptions C29_always.

(** When it ends without an error nothing is left to do. *)
Theorem C29_at_rest : forall T (eqb : T -> T -> bool) fuel s s', resolve_tg eqb fuel s = Some (s', Ok tt) -> at_rest s'.
Proof. exact resolve_rest. Qed.
Print Assumptions C29_at_rest.

Definition n (i o : kn nat) : node nat := {| input := i; output := o |}.
Definition e (a b : nat) (f : flow) : edge := {| e_from := a; e_to := b; e_flow := f |}.
Definition open := Inferred [1; 2; 3].
(** A ring of four nodes with edges both ways, and one known type. *)
Definition ring : tgraph nat :=
  {| nodes := [n open open; n open open; n open open; n (Inferred [2; 3; 4]) (Known 2)];
     edges := [e 1 0 II; e 0 1 II; e 2 1 II; e 3 2 OI; e 0 3 IO; e 0 0 IO; e 1 2 II]; anon_tys := [] |}.

(** It needs three rounds; two do not suffice. *)
Example C29_example : resolve_tg Nat.eqb 2 (ring, []) = None /\
  match resolve_tg Nat.eqb 5 (ring, []) with
  | Some ((g, flowed), Ok _) => length flowed = 7 /\ kn_at g (0, In_) = Some (Known 2) /\ kn_at g (0, Out_) = Some (Known 2)
  | _ => False
  end.
Proof. vm_compute. auto. Qed.
