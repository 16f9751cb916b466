(** The language server: messages are handled by a pool of threads. *)
From Coq Require Import String List ZArith NArith Bool Arith.
From Verif Require Import Model.Base Model.Value Model.Registry Model.Utf Model.Lsp.
Import ListNotations.
Set Implicit Arguments.

(** ogma-ls/server/mod.rs:64-82, initialize.rs:37-39, completion.rs:58-60, hover.rs:50-52: requests that have a handler *)
Definition handled : list str := map lit ["shutdown"; "initialize"; "textDocument/completion"; "textDocument/hover"]%string.

Section Server.
  Variable bare_cr : bool.
  (** Parameters of requests, responses, definitions *)
  Variables Q R D : Type.
  (** workspace.rs:130-140 [def_load]: clears, so what is loaded does not depend on the definitions before (C78) *)
  Variable load : list (str * file) -> D.
  (** The result or error of a handler (mod.rs:255-284).  Hovering and completing take the locks of files and definitions one after the other; here at once. *)
  Variable call : str -> Q -> list (str * file) -> D -> R.

  (** The messages received; those without any effect on files or answers are one.  [exit] is left out. *)
  Inductive msg := MOpen (u : str) (v : Z) (text : str) | MChange (u : str) (v : Z) (cs : list change) | MSave | MRequest (id : nat) (method : str) (q : Q) | MOther.

  (** What a thread does while it holds a lock *)
  Inductive act := AAdd (u : str) (f : file) | AChanges (u : str) (d : Z * list change) | ALoad | AAnswer (id : nat) (method : str) (q : Q).

  (** mod.rs:106-150 [run], [handle_req], [handle_notification]; file_mgmt.rs:8-33.  A request without handler is dropped. *)
  Definition task (m : msg) : list act :=
    match m with
    | MOpen u v text => [AAdd u (file_new text v); ALoad]
    | MChange u v cs => [AChanges u (v, cs)]
    | MSave => [ALoad]
    | MRequest id method q => if existsb (str_eqb method) handled then [AAnswer id method q] else []
    | MOther => []
    end.

  Record server := Server { s_inbox : list msg; s_pool : list (list act); s_files : list (str * file); s_defs : D; s_out : list (nat * R) }.

  (** workspace.rs:43-45 [add_file], [HashMap::insert] *)
  Definition put_file (u : str) (f : file) (files : list (str * file)) : list (str * file) := (u, f) :: filter (fun e => negb (str_eqb (fst e) u)) files.
  (** workspace.rs:47-51 [add_file_changes]: changes to a file that is not there are dropped. *)
  Definition change_file (u : str) (d : Z * list change) (files : list (str * file)) : res (list (str * file)) :=
    match alookup str_eqb u files with
    | Some f => let? f := add_changes bare_cr d f in Ok (put_file u f files)
    | None => Ok files
    end.

  (** One action; a panic of a thread of the pool ends the process ([rayon::spawn]). *)
  Definition perform (a : act) (s : server) : res server :=
    let 'Server i p f d o := s in
    match a with
    | AAdd u x => Ok (Server i p (put_file u x f) d o)
    | AChanges u c => let? f := change_file u c f in Ok (Server i p f d o)
    | ALoad => Ok (Server i p f (load f) o)
    | AAnswer id method q => Ok (Server i p f d (o ++ [(id, call method q f d)]))
    end.

  Fixpoint take_act (k : nat) (pool : list (list act)) : option (act * list (list act)) :=
    match pool, k with
    | [], _ => None
    | (a :: t) :: pool, 0 => Some (a, t :: pool)
    | [] :: _, 0 => None
    | t :: pool, S k => match take_act k pool with Some (a, pool) => Some (a, t :: pool) | None => None end
    end.
  (** Choice 0: the next message is received and spawned.  Choice [S k]: thread [k] goes on. *)
  Definition move (c : nat) (s : server) : res server :=
    match c with
    | 0 => match s_inbox s with
           | [] => Ok s
           | m :: i => Ok (Server i (s_pool s ++ [task m]) (s_files s) (s_defs s) (s_out s))
           end
    | S k => match take_act k (s_pool s) with
             | Some (a, p) => perform a (Server (s_inbox s) p (s_files s) (s_defs s) (s_out s))
             | None => Ok s
             end
    end.
  Fixpoint run (choices : list nat) (s : server) : res server :=
    match choices with
    | [] => Ok s
    | c :: cs => let? s := move c s in run cs s
    end.
  Definition start (files : list (str * file)) (d : D) (ms : list msg) : server := Server ms [] files d [].
End Server.
Arguments MOpen {Q}. Arguments MChange {Q}. Arguments MSave {Q}. Arguments MOther {Q}. Arguments MRequest {Q}.
Arguments AAdd {Q}. Arguments AChanges {Q}. Arguments ALoad {Q}. Arguments AAnswer {Q}.
