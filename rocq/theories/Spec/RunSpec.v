(** Removing adjacent repeats, described by the runs of the input. *)
From Coq Require Import List Sorted.
Import ListNotations.
Set Implicit Arguments.

(** [out] keeps the first element of each run of [l]: the input is cut into runs, each run being a
    leader followed by elements [same] as it, and no leader is [same] as the leader before it. *)
Definition is_dedup {A} (same : A -> A -> Prop) (l out : list A) : Prop :=
  exists runs : list (A * list A),
    l = flat_map (fun r => fst r :: snd r) runs /\
    out = map fst runs /\
    (forall r x, In r runs -> In x (snd r) -> same x (fst r)) /\
    (forall pre a b post, out = pre ++ a :: b :: post -> ~ same b a).
