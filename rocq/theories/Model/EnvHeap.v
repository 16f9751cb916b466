(** Environments as they are: reference counted arrays, shared by clones, copied before a write. *)
From Coq Require Import String List ZArith NArith Bool Lia.
From Verif Require Import Model.Base Model.Value Model.Exec.
Import ListNotations.
Set Implicit Arguments.

(** An [Arc<[Value]>] allocation: the data and the counts as [Arc::strong_count] and
    [Arc::weak_count] give them (no [Weak] is ever made, so the latter is 0).  Addresses are not
    reused; a freed cell has no strong references. *)
Record cell := Cell { c_data : list value; c_strong : nat; c_weak : nat }.
Definition heap := list cell.
Definition addr := nat.

Fixpoint upd_nth {A} (i : nat) (f : A -> A) (l : list A) : list A :=
  match l, i with
  | [], _ => []
  | x :: l, 0 => f x :: l
  | x :: l, S i => x :: upd_nth i f l
  end.

Definition alloc (data : list value) (h : heap) : addr * heap := (length h, h ++ [Cell data 1 0]).
Definition inc (a : addr) (h : heap) : heap := upd_nth a (fun c => Cell (c_data c) (S (c_strong c)) (c_weak c)) h.
Definition dec (a : addr) (h : heap) : heap := upd_nth a (fun c => Cell (c_data c) (pred (c_strong c)) (c_weak c)) h.
Definition write (a : addr) (data : list value) (h : heap) : heap :=
  upd_nth a (fun c => Cell data (c_strong c) (c_weak c)) h.

(** eng/var.rs:40: the test for being the only owner *)
Definition uniq (c : cell) : bool := Nat.eqb (c_weak c) 1 && Nat.eqb (c_strong c) 1.
(** [Arc::get_mut]: the only strong reference and no weak one *)
Definition get_mut (c : cell) : bool := Nat.eqb (c_strong c) 1 && Nat.eqb (c_weak c) 0.

(** ** Threads
    Any number of environments, used by any number of threads.  The parts of [make_mut] may be
    interleaved with what others do; an environment that is being written ([&mut self]) is not used
    in any other way meanwhile. *)

(** eng/var.rs:31-49 [make_mut], 91-107 [set_data]: about to test; tested; copying (these elements have been
    cloned); about to call [get_mut] and write *)
Inductive phase := PStart | PChecked (only : bool) | PCopy (acc : list value) | PReady.
Record handle := Handle { h_addr : addr; h_busy : option (nat * value * phase) }.
Record machine := Machine { m_heap : heap; m_handles : list (option handle) }.

Inductive event :=
| ENew (n : nat)                       (* Environment::new *)
| EClone (h : nat)
| EDrop (h : nat)
| EFetch (h : nat) (i : nat)           (* Variable::fetch *)
| EBegin (h : nat) (i : nat) (v : value) (* Variable::set_data is called *)
| EStep (h : nat).                     (* ... and makes a step *)
Inductive output := OHandle (h : nat) | ODone | OVal (v : value) | OPending | OPanic | OIllegal.

Definition set_handle (h : nat) (x : option handle) (l : list (option handle)) : list (option handle) :=
  upd_nth h (fun _ => x) l.
Definition cell_at (a : addr) (h : heap) : option cell := nth_error h a.

Definition step_set (m : machine) (h : nat) (a : addr) (i : nat) (v : value) (p : phase) : machine * output :=
  let goto a p hp := Machine hp (set_handle h (Some (Handle a (Some (i, v, p)))) (m_handles m)) in
  let idle hp := Machine hp (set_handle h (Some (Handle a None)) (m_handles m)) in
  match cell_at a (m_heap m) with
  | None => (m, OPanic)
  | Some c =>
      match p with
      | PStart => (goto a (PChecked (uniq c)) (m_heap m), OPending)
      | PChecked true => (goto a PReady (m_heap m), OPending)
      | PChecked false => (goto a (PCopy []) (m_heap m), OPending)
      | PCopy acc =>
          match nth_error (c_data c) (length acc) with
          | Some x => (goto a (PCopy (acc ++ [x])) (m_heap m), OPending)
          | None => let (a', hp) := alloc acc (m_heap m) in (goto a' PReady (dec a hp), OPending)
          end
      | PReady =>
          if get_mut c
          then match put i v (c_data c) with
               | Some data => (idle (write a data (m_heap m)), ODone)
               | None => (idle (m_heap m), OPanic)
               end
          else (idle (m_heap m), OPanic)
      end
  end.

Definition occur (m : machine) (e : event) : machine * output :=
  let idle h := match nth_error (m_handles m) h with
                | Some (Some (Handle a None)) => Some a | _ => None end in
  match e with
  | ENew n => let (a, hp) := alloc (env_new n) (m_heap m) in
              (Machine hp (m_handles m ++ [Some (Handle a None)]), OHandle (length (m_handles m)))
  | EClone h => match idle h with
                | Some a => (Machine (inc a (m_heap m)) (m_handles m ++ [Some (Handle a None)]), OHandle (length (m_handles m)))
                | None => (m, OIllegal)
                end
  | EDrop h => match idle h with
               | Some a => (Machine (dec a (m_heap m)) (set_handle h None (m_handles m)), ODone)
               | None => (m, OIllegal)
               end
  | EFetch h i => match idle h with
                  | Some a => match cell_at a (m_heap m) with
                              | Some c => match nth_error (c_data c) i with
                                          | Some v => (m, OVal v) | None => (m, OPanic) end
                              | None => (m, OPanic)
                              end
                  | None => (m, OIllegal)
                  end
  | EBegin h i v => match idle h with
                    | Some a => (Machine (m_heap m) (set_handle h (Some (Handle a (Some (i, v, PStart)))) (m_handles m)), OPending)
                    | None => (m, OIllegal)
                    end
  | EStep h => match nth_error (m_handles m) h with
               | Some (Some (Handle a (Some (i, v, p)))) => step_set m h a i v p
               | _ => (m, OIllegal)
               end
  end.

Fixpoint happen (m : machine) (es : list event) : machine * list (event * output) :=
  match es with
  | [] => (m, [])
  | e :: es => let (m, o) := occur m e in let (m, tr) := happen m es in (m, (e, o) :: tr)
  end.

(** ** The evaluator on the heap
    As in [Model.Exec], but an environment is an address that owns a reference. *)
Section Eval.
Variable W : Type.
Local Notation WH := (W * heap)%type.
Local Notation HM := (M (W * heap)).

Definition on_heap {A} (f : heap -> heap * res A) : HM A := fun wh => let (h, r) := f (snd wh) in ((fst wh, h), r).
Definition h_clone (a : addr) : HM addr := on_heap (fun h => (inc a h, Ok a)).
Definition h_drop (a : addr) : HM unit := on_heap (fun h => (dec a h, Ok tt)).
Definition h_fetch (i : nat) (a : addr) : HM value :=
  on_heap (fun h => (h, match cell_at a h with Some c => fetch i (c_data c) | None => Panic end)).

(** eng/var.rs:31-49 *)
Definition h_make_mut (a : addr) : HM addr := on_heap (fun h =>
  match cell_at a h with
  | None => (h, Panic)
  | Some c =>
      let (a, h) := if negb (uniq c) then let (a', h) := alloc (c_data c) h in (a', dec a h) else (a, h) in
      match cell_at a h with
      | Some c => if get_mut c then (h, Ok a) else (h, Panic)
      | None => (h, Panic)
      end
  end).
(** eng/var.rs:91-107 *)
Definition h_set (x : option nat) (v : value) (a : addr) : HM addr :=
  match x with
  | None => ret a
  | Some i =>
      bind (h_make_mut a) (fun a => on_heap (fun h =>
        match cell_at a h with
        | Some c => match put i v (c_data c) with Some d => (write a d h, Ok a) | None => (h, Panic) end
        | None => (h, Panic)
        end))
  end.

(** leaving early with [?] drops the environments that are owned *)
Definition owning {A} (a : addr) (m : HM A) : HM A := fun wh =>
  match m wh with
  | (wh, Err n) => ((fst wh, dec a (snd wh)), Err n)
  | r => r
  end.

Fixpoint h_run_act (args : list (value -> addr -> HM value)) (vars : list (option nat)) (act : act W)
  (a : addr) {struct act} : HM (value * addr) :=
  match act with
  | Done v => ret (v, a)
  | Fail n => owning a (fail n)
  | Crash => crash
  | Resolve i input k =>
      match nth_error args i with
      | Some r => bind (owning a (r input a)) (fun v => h_run_act args vars (k v) a)
      | None => crash
      end
  | SetVar i v k =>
      match nth_error vars i with
      | Some x => bind (h_set x v a) (fun a => h_run_act args vars k a)
      | None => crash
      end
  | Ask f k => fun wh => let (w, v) := f (fst wh) in h_run_act args vars (k v) a (w, snd wh)
  end.

(** parameters of a definition (step.rs:11-16): resolved in the environment that is being filled *)
Fixpoint h_params (ps : list (option nat * (value -> addr -> HM value))) (input : value) (a : addr) : HM addr :=
  match ps with
  | [] => ret a
  | (x, r) :: ps => bind (owning a (r input a)) (fun v => bind (h_set x v a) (fun a => h_params ps input a))
  end.
(** arguments of injected code (eval.rs:233-237): resolved in the outer environment *)
Fixpoint h_mapped (outer : addr) (ps : list (option nat * (value -> addr -> HM value))) (input : value) (a : addr) : HM addr :=
  match ps with
  | [] => ret a
  | (x, r) :: ps => bind (owning a (r input outer)) (fun v => bind (h_set x v a) (fun a => h_mapped outer ps input a))
  end.

(** where the environment of a piece of injected code lives (eval.rs:124-127) *)
Variable home : env -> addr.

Fixpoint h_invoke (s : step W) (input : value) (a : addr) {struct s} : HM (value * addr) :=
  match s with
  | Op args vars f => h_run_act (map h_resolve args) vars (f input) a
  | Def params body =>
      bind (h_params (map (fun p => (fst p, h_resolve (snd p))) params) input a) (fun a =>
      (fix eval (steps : list (step W)) (v : value) (a : addr) : HM (value * addr) :=
         match steps with
         | [] => ret (v, a)
         | s :: steps => bind (h_invoke s v a) (fun p => eval steps (fst p) (snd p))
         end) body input a)
  | Inject args local body =>
      (* eval.rs:212-217: a clone of the own environment *)
      bind (h_clone (home local)) (fun b =>
      bind (owning a (h_mapped a
              (map (fun p => let '(h, x, fixed) := p in
                 (x, fun i a => h_resolve h (match fixed with Some v => v | None => i end) a)) args) input b)) (fun b =>
      bind (owning a
      ((fix eval (steps : list (step W)) (v : value) (a : addr) : HM (value * addr) :=
         match steps with
         | [] => ret (v, a)
         | s :: steps => bind (h_invoke s v a) (fun p => eval steps (fst p) (snd p))
         end) body input b)) (fun p =>
      bind (h_drop (snd p)) (fun _ => ret (fst p, a)))))
  end
with h_resolve (h : hold W) (input : value) (a : addr) {struct h} : HM value :=
  match h with
  | HLit v => ret v
  | HVar i => h_fetch i a
  | HExpr stack =>
      bind (h_clone a) (fun b =>
      bind
      ((fix eval (steps : list (step W)) (v : value) (a : addr) : HM (value * addr) :=
         match steps with
         | [] => ret (v, a)
         | s :: steps => bind (h_invoke s v a) (fun p => eval steps (fst p) (snd p))
         end) stack input b) (fun p =>
      bind (h_drop (snd p)) (fun _ => ret (fst p))))
  end.

Fixpoint h_eval (steps : list (step W)) (v : value) (a : addr) : HM (value * addr) :=
  match steps with
  | [] => ret (v, a)
  | s :: steps => bind (h_invoke s v a) (fun p => h_eval steps (fst p) (snd p))
  end.

(** the environments of the injected code in a step *)
Fixpoint homes (s : step W) : list env :=
  match s with
  | Op args _ _ => flat_map homes_hold args
  | Def params body => flat_map (fun p => homes_hold (snd p)) params ++ flat_map homes body
  | Inject args local body => local :: flat_map (fun p => homes_hold (fst (fst p))) args ++ flat_map homes body
  end
with homes_hold (h : hold W) : list env :=
  match h with
  | HLit _ | HVar _ => []
  | HExpr stack => flat_map homes stack
  end.

End Eval.
