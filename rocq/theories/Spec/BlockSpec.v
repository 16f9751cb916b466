(** What an op takes from the arguments and flags as they are written, without queues or counters. *)
From Coq Require Import String List Bool.
From Verif Require Import Model.Base Model.Block.
Import ListNotations.
Set Implicit Arguments.

(** [takes o fs xs l r fs' xs']: the op [o] with the written flags [fs] and arguments [xs] takes [l] in turn, ends with
    [r], and leaves [fs'] and [xs'] as they are. Arguments are taken in written order.  A flag asked for by name is the last
    one written with this name; without a name it is the first. *)
Inductive takes A R : op A R -> list str -> list A -> list (got A) -> R -> list str -> list A -> Prop :=
  | T_eval r fs xs : takes (OEval _ r) fs xs [] r fs xs
  | T_next k fs x xs l r fs' xs' : takes (k x) fs xs l r fs' xs' -> takes (ONext k) fs (x :: xs) (GArg x :: l) r fs' xs'
  | T_try k fs x xs l r fs' xs' : takes (k (Some x)) fs xs l r fs' xs' -> takes (OTry k) fs (x :: xs) (GArg x :: l) r fs' xs'
  | T_try0 k fs l r fs' xs' : takes (k None) fs [] l r fs' xs' -> takes (OTry k) fs [] l r fs' xs'
  | T_any k f fs xs l r fs' xs' : takes (k (Some f)) fs xs l r fs' xs' -> takes (OFlag None k) (f :: fs) xs (GFlag f :: l) r fs' xs'
  | T_any0 k xs l r fs' xs' : takes (k None) [] xs l r fs' xs' -> takes (OFlag None k) [] xs l r fs' xs'
  | T_named k n a b xs l r fs' xs' : ~ In n b -> takes (k (Some n)) (a ++ b) xs l r fs' xs' ->
      takes (OFlag (Some n) k) (a ++ n :: b) xs (GFlag n :: l) r fs' xs'
  | T_named0 k n fs xs l r fs' xs' : ~ In n fs -> takes (k None) fs xs l r fs' xs' -> takes (OFlag (Some n) k) fs xs l r fs' xs'
  | T_len k fs xs l r fs' xs' : takes (k (length xs)) fs xs l r fs' xs' -> takes (OLen k) fs xs l r fs' xs'
  | T_peek k fs xs l r fs' xs' : takes (k (hd_error xs)) fs xs l r fs' xs' -> takes (OPeek k) fs xs l r fs' xs'
  | T_last k fs xs l r fs' xs' : takes (k (hd_error (rev xs))) fs xs l r fs' xs' -> takes (OLast k) fs xs l r fs' xs'
  | T_inject k fs x xs l r fs' xs' : takes (k x) fs (x :: xs) l r fs' xs' -> takes (OInject k) fs (x :: xs) l r fs' xs'.

Fixpoint args_of A (l : list (got A)) : list A :=
  match l with [] => [] | GArg a :: r => a :: args_of r | GFlag _ :: r => args_of r end.
Fixpoint flags_of A (l : list (got A)) : list str :=
  match l with [] => [] | GArg _ :: r => flags_of r | GFlag f :: r => f :: flags_of r end.

(** Ask for [n] arguments, then go on. *)
Fixpoint ask A R (n : nat) (k : list A -> op A R) : op A R :=
  match n with 0 => k [] | S n => ONext (fun a => ask n (fun l => k (a :: l))) end.

(** The positions of the parameters evaluated at the call. *)
Fixpoint call_positions (i : nat) (params : list pkind) : list nat :=
  match params with [] => [] | PLazy :: r => call_positions (S i) r | PCall :: r => i :: call_positions (S i) r end.
Fixpoint call_args A (params : list pkind) (args : list A) : list A :=
  match params, args with
  | PCall :: p, a :: r => a :: call_args p r
  | PLazy :: p, _ :: r => call_args p r
  | _, _ => []
  end.
