(** What it means to be a stable sort, and the contract of the standard library sort. *)
From Coq Require Import List Permutation Sorted Bool.
Import ListNotations.
Set Implicit Arguments.

(** [cmp] restricted to [P] is a total preorder. *)
Definition total_preorder_on {A} (P : A -> Prop) (cmp : A -> A -> comparison) : Prop :=
  (forall a, P a -> cmp a a = Eq) /\
  (forall a b, P a -> P b -> cmp b a = CompOpp (cmp a b)) /\
  (forall a b c, P a -> P b -> P c -> cmp a b <> Gt -> cmp b c <> Gt -> cmp a c <> Gt).

Definition total_preorder {A} (cmp : A -> A -> comparison) : Prop :=
  total_preorder_on (fun _ => True) cmp.

Definition eqv {A} (cmp : A -> A -> comparison) (a b : A) : bool :=
  match cmp a b with Eq => true | _ => false end.

(** [out] has the elements of [l], in order, and elements that compare equal to any given [x]
    are in the same order as they are in [l]. *)
Definition is_stable_sort {A} (cmp : A -> A -> comparison) (l out : list A) : Prop :=
  Permutation l out /\
  StronglySorted (fun a b => cmp a b <> Gt) out /\
  (forall x, In x l -> filter (eqv cmp x) out = filter (eqv cmp x) l).

(** Lexicographic combination of comparisons, first one most significant. *)
Fixpoint lex_cmp {A} (cs : list (A -> A -> comparison)) (a b : A) : comparison :=
  match cs with
  | [] => Eq
  | c :: cs => match c a b with Eq => lex_cmp cs a b | x => x end
  end.

(** The documented contract of [slice::sort_by]: always a permutation; a stable sort when the
    comparison is a total order; a function of the answers it received. *)
Definition sort_contract
    (so : forall A : Type, (A -> A -> comparison) -> list A -> list A * list (A * A)) : Prop :=
  forall (A : Type) (cmp : A -> A -> comparison) (l : list A),
    Permutation l (fst (so A cmp l)) /\
    (total_preorder_on (fun x => In x l) cmp -> is_stable_sort cmp l (fst (so A cmp l))) /\
    (forall a b, In (a, b) (snd (so A cmp l)) -> In a l /\ In b l) /\
    (forall cmp2, (forall a b, In (a, b) (snd (so A cmp l)) -> cmp2 a b = cmp a b) ->
                  so A cmp2 l = so A cmp l).
