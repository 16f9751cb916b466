(** What clones of environments look like to those who use them: an array for each. *)
From Coq Require Import List Arith Bool.
From Verif Require Import Model.Base Model.Value Model.Exec Model.EnvHeap.
Import ListNotations.
Set Implicit Arguments.

(** per environment: its contents and the write that is under way, if any; [None] once dropped *)
Definition private := list (option (list value * option (nat * value))).

Definition place {A} (i : nat) (x : A) (l : list A) : list A := firstn i l ++ x :: skipn (S i) l.
Definition is_idle (p : private) (h : nat) : Prop := exists c, nth_error p h = Some (Some (c, None)).
Definition is_busy (p : private) (h : nat) : Prop := exists c iv, nth_error p h = Some (Some (c, Some iv)).

(** [allowed p e o p']: with contents [p], event [e] may be seen to give [o] and leave [p'].
    Only the environment named in the event is read or altered. *)
Inductive allowed (p : private) : event -> output -> private -> Prop :=
| al_new n : allowed p (ENew n) (OHandle (length p)) (p ++ [Some (repeat VNil n, None)])
| al_clone h c : nth_error p h = Some (Some (c, None)) -> allowed p (EClone h) (OHandle (length p)) (p ++ [Some (c, None)])
| al_drop h : is_idle p h -> allowed p (EDrop h) ODone (place h None p)
| al_fetch h c i v : nth_error p h = Some (Some (c, None)) -> nth_error c i = Some v -> allowed p (EFetch h i) (OVal v) p
| al_fetch_out h c i : nth_error p h = Some (Some (c, None)) -> length c <= i -> allowed p (EFetch h i) OPanic p
| al_begin h c i v : nth_error p h = Some (Some (c, None)) ->
    allowed p (EBegin h i v) OPending (place h (Some (c, Some (i, v))) p)
| al_wait h : is_busy p h -> allowed p (EStep h) OPending p
| al_done h c i v : nth_error p h = Some (Some (c, Some (i, v))) -> i < length c ->
    allowed p (EStep h) ODone (place h (Some (place i v c, None)) p)
| al_out h c i v : nth_error p h = Some (Some (c, Some (i, v))) -> length c <= i ->
    allowed p (EStep h) OPanic (place h (Some (c, None)) p)
(* what the borrow checker rules out: no such environment, or one that is being written *)
| al_never e h : (e = EClone h \/ e = EDrop h \/ (exists i, e = EFetch h i) \/ (exists i v, e = EBegin h i v)) ->
    ~ is_idle p h -> allowed p e OIllegal p
| al_never_step h : ~ is_busy p h -> allowed p (EStep h) OIllegal p.

Inductive allowed_all : private -> list (event * output) -> private -> Prop :=
| all_none p : allowed_all p [] p
| all_next p e o p1 tr p2 : allowed p e o p1 -> allowed_all p1 tr p2 -> allowed_all p ((e, o) :: tr) p2.

(** Number of live handles on a cell. *)
Definition owners (a : addr) (hs : list (option handle)) : nat :=
  length (filter (fun o => match o with Some h => Nat.eqb (h_addr h) a | None => false end) hs).

Definition start : machine := Machine [] [].
Definition is_step (h : nat) (e : event) : bool := match e with EStep h' => Nat.eqb h h' | _ => false end.

(** a write of [h] comes to its end *)
Definition ended (h : nat) (eo : event * output) : bool :=
  match eo with (EStep h', ODone) | (EStep h', OPanic) => Nat.eqb h h' | _ => false end.

(** events that end, write or go on writing [h] *)
Definition touches (h : nat) (e : event) : bool :=
  match e with EDrop h' | EBegin h' _ _ | EStep h' => Nat.eqb h h' | _ => false end.

(** ** The evaluator
    [refs F hp]: the references that exist are those listed in [F]. *)
Definition refs (F : list addr) (hp : heap) : Prop :=
  (forall a c, nth_error hp a = Some c -> c_strong c = count_occ Nat.eq_dec F a /\ c_weak c = 0) /\
  (forall a, In a F -> a < length hp).
(** cell [a] has contents [e] *)
Definition holds (hp : heap) (a : addr) (e : env) : Prop := exists c, nth_error hp a = Some c /\ c_data c = e.
(** who holds a reference in [F] sees no change *)
Definition keep (F : list addr) (hp hp' : heap) : Prop := forall a e, In a F -> holds hp a e -> holds hp' a e.

(** the environments of injected code are where they are said to be *)
Definition homed (home : env -> addr) (ls : list env) (F : list addr) (hp : heap) : Prop :=
  forall l, In l ls -> In (home l) F /\ holds hp (home l) l.
