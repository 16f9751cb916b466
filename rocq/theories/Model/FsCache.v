(** The cache of opened files. *)
From Coq Require Import List ZArith NArith Bool.
From Verif Require Import Model.Base Model.Value.
Import ListNotations.
Set Implicit Arguments.

(** ogma/src/rt/fscache.rs:23-33 [Key], [Value], [Map].  Times are natural numbers. *)
Record key := Key { k_path : str; k_ty : ty }.
Definition key_eqb (a b : key) : bool := str_eqb (k_path a) (k_path b) && ty_eqb (k_ty a) (k_ty b).
Notation cache_map := (list (key * (N * value))).

Fixpoint find_key (k : key) (m : cache_map) : option (N * value) :=
  match m with
  | [] => None
  | (k', x) :: m => if key_eqb k k' then Some x else find_key k m
  end.
Definition remove_key (k : key) (m : cache_map) : cache_map := filter (fun kv => negb (key_eqb k (fst kv))) m.
(** HashMap::insert *)
Definition insert_key (k : key) (x : N * value) (m : cache_map) : cache_map := (k, x) :: remove_key k m.

(** What happens to the cache, in the order in which the lock is taken. *)
Inductive cache_op :=
| CGet (p : str) (t : ty)           (* get::<T> *)
| CInsert (p : str) (v : value)     (* insert; T is the type of the value *)
| CChanged (ps : list str)          (* remove_path_changes *)
| CExpire (age : N).                (* remove_expired *)

Section Cache.
  (** [str::to_lowercase] *)
  Variable lower : str -> str.

  (** fscache.rs:36-40 [Key::from], 113-115 [path_to_str] *)
  Definition key_of (p : str) (t : ty) : key := Key (lower p) t.

  (** fscache.rs:46-62 [get], at time [now]: a hit renews the time; then [T::try_from]. *)
  Definition cache_get (now : N) (p : str) (t : ty) (m : cache_map) : option value * cache_map :=
    match find_key (key_of p t) m with
    | Some (_, v) => (if ty_eqb (ty_of v) t then Some v else None, insert_key (key_of p t) (now, v) m)
    | None => (None, m)
    end.

  (** fscache.rs:65-72 [insert] *)
  Definition cache_insert (now : N) (p : str) (v : value) (m : cache_map) : cache_map :=
    insert_key (key_of p (ty_of v)) (now, v) m.

  (** fscache.rs:74-76 [remove_expired] *)
  Definition remove_expired (now age : N) (m : cache_map) : cache_map :=
    filter (fun kv => (now - fst (snd kv) <? age)%N) m.

  (** fscache.rs:78-87 [remove_path_changes] *)
  Definition remove_path_changes (ps : list str) (m : cache_map) : cache_map :=
    filter (fun kv => negb (existsb (str_eqb (k_path (fst kv))) (map lower ps))) m.

  Definition cache_step (m : cache_map) (e : N * cache_op) : cache_map :=
    let (now, op) := e in
    match op with
    | CGet p t => snd (cache_get now p t m)
    | CInsert p v => cache_insert now p v m
    | CChanged ps => remove_path_changes ps m
    | CExpire age => remove_expired now age m
    end.
  Definition cache_run (log : list (N * cache_op)) : cache_map := fold_left cache_step log [].
End Cache.

(** [open] (ogma/src/lang/impls/intrinsics/io.rs:207-250) together with the file system.  A lookup that misses
    reads and parses the file, and inserts the result later; other events may come between.  [WOpened p t i]:
    an [open] that read the file when [i] events had happened inserts what it read. *)
Inductive world_event :=
| WWrite (p : str) (content : option str)   (* a file is written, created, or removed *)
| WLookup (p : str) (t : ty)
| WOpened (p : str) (t : ty) (read_at : nat)
| WNotice (ps : list str)                   (* the watcher reports changes, fscache.rs:124-157 *)
| WExpire (age : N).

Section World.
  Variable lower : str -> str.
  (** Parsing a file as a type (io.rs:223-229, 241). *)
  Variable parse : ty -> str -> option value.

  Definition content_step (p : str) (c : option str) (e : N * world_event) : option str :=
    match snd e with WWrite q c' => if str_eqb p q then c' else c | _ => c end.
  Definition content_after (w : list (N * world_event)) (p : str) : option str :=
    fold_left (content_step p) w None.

  (** The cache operation of event [e] of the trace [w]; a failed read inserts nothing. *)
  Definition cache_op_of (w : list (N * world_event)) (e : N * world_event) : list (N * cache_op) :=
    match snd e with
    | WWrite _ _ => []
    | WLookup p t => [(fst e, CGet p t)]
    | WOpened p t i =>
        match content_after (firstn i w) p with
        | Some c => match parse t c with Some v => [(fst e, CInsert p v)] | None => [] end
        | None => []
        end
    | WNotice ps => [(fst e, CChanged ps)]
    | WExpire age => [(fst e, CExpire age)]
    end.
  Definition cache_log (w : list (N * world_event)) : list (N * cache_op) := flat_map (cache_op_of w) w.

  (** What [open] returns at time [now] after [w]: the cached value, or else what the file holds. *)
  Definition open_value (w : list (N * world_event)) (now : N) (p : str) (t : ty) : option value :=
    match fst (cache_get lower now p t (cache_run lower (cache_log w))) with
    | Some v => Some v
    | None => match content_after w p with Some c => parse t c | None => None end
    end.
End World.
