(** What a lookup in the file cache may return, in terms of the log of what happened. *)
From Coq Require Import List ZArith NArith Bool Sorted.
From Verif Require Import Model.Base Model.Value Model.FsCache.
Import ListNotations.

Section Spec.
  Variable lower : str -> str.

  Definition same_key (p : str) (t : ty) (q : str) (u : ty) : Prop := lower p = lower q /\ ty_eqb t u = true.

  (** [v] was inserted for the path and type, not replaced, not told changed; and at each clean-up since
      then it had been used (inserted or looked up) less than the age before. *)
  Definition cached (log : list (N * cache_op)) (p : str) (t : ty) (v : value) : Prop :=
    exists l1 t0 p0 l2, log = l1 ++ (t0, CInsert p0 v) :: l2 /\ same_key p t p0 (ty_of v) /\
      (forall t' q w, In (t', CInsert q w) l2 -> ~ same_key p t q (ty_of w)) /\
      (forall t' ps q, In (t', CChanged ps) l2 -> In q ps -> lower q <> lower p) /\
      (forall l3 now age l4, l2 = l3 ++ (now, CExpire age) :: l4 ->
         exists used, (used = t0 \/ exists q u, In (used, CGet q u) l3 /\ same_key p t q u) /\
                      (now - used < age)%N).

  Definition in_time_order (log : list (N * cache_op)) : Prop := StronglySorted N.le (map fst log).
End Spec.

(** [open]: the last content written to a file. *)
Definition holds (w : list (N * world_event)) (p : str) (c : option str) : Prop :=
  (c = None /\ forall t d, ~ In (t, WWrite p d) w) \/
  exists w1 t w2, w = w1 ++ (t, WWrite p c) :: w2 /\ forall t' d, ~ In (t', WWrite p d) w2.

(** An open inserts after it read. *)
Definition reads_before (w : list (N * world_event)) : Prop :=
  forall k t p ty i, nth_error w k = Some (t, WOpened p ty i) -> i <= k.

(** Each write to [p] is reported, and every open that read [p] before the write has inserted by then. *)
Definition reported (w : list (N * world_event)) (p : str) : Prop :=
  forall k t d, nth_error w k = Some (t, WWrite p d) ->
    exists j t' ps, k < j /\ nth_error w j = Some (t', WNotice ps) /\ In p ps /\
      forall n t'' ty i, nth_error w n = Some (t'', WOpened p ty i) -> i <= k -> n < j.
