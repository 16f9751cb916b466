(** How an op takes its arguments and flags while a block is compiled.  Models ogma/src/eng/comp/mod.rs:616-639
    (Block::construct), ogma/src/eng/blk.rs (args_len 25-28, get_flag 79-91, peek_next_arg_node and peek_last_arg_node
    93-101, inject_manual_var_next_arg 207-216, eval 250-263, finalise 279-303), ogma/src/eng/arg.rs (pop 339-342, next_arg
    474-494), and for a call of a definition ogma/src/eng/comp/params.rs (insert_available_def_locals 23-64,
    map_def_params_into_variables 82-157, finalise_args 235-241) and ogma/src/eng/comp/mod.rs (compile_block 463-503,
    map_callsite_params_for_def_step 521-556).

    Not here: types of arguments, what is compiled from them. *)
From Coq Require Import String List Bool NArith.
From Verif Require Import Model.Base.
Import ListNotations.
Set Implicit Arguments.

(** Errors: 1 insufficient_args, 2 unused_flags, 3 unused_args, 4 any error of the op itself. *)
Record blk A := { b_flags : list str; b_args : list A; b_count : N }.

(** comp/mod.rs:616-639: both lists are reversed, to be popped from the end. *)
Definition construct A (flags : list str) (args : list A) : blk A :=
  {| b_flags := rev flags; b_args := rev args; b_count := 0 |}.

(** Vec::pop. *)
Definition pop_end {B} (l : list B) : option (B * list B) :=
  match rev l with [] => None | x :: r => Some (x, rev r) end.

(** blk.rs:79-91, with a name: the first match in the vector is removed. *)
Fixpoint remove_first (name : str) (l : list str) : option (str * list str) :=
  match l with
  | [] => None
  | x :: r => if str_eqb x name then Some (x, r)
              else match remove_first name r with Some (y, r') => Some (y, x :: r') | None => None end
  end.
Definition get_flag A (name : option str) (b : blk A) : option str * blk A :=
  match (match name with Some n => remove_first n (b_flags b) | None => pop_end (b_flags b) end) with
  | Some (x, r) => (Some x, {| b_flags := r; b_args := b_args b; b_count := b_count b |})
  | None => (None, b)
  end.

(** arg.rs:339-342 and 474-494; the count is a u8 that wraps in a release build, it is only used in the error text. *)
Definition next_arg A (b : blk A) : res (A * blk A) :=
  match pop_end (b_args b) with
  | Some (x, r) => Ok (x, {| b_flags := b_flags b; b_args := r; b_count := ((b_count b + 1) mod 256)%N |})
  | None => Err 1
  end.

(** What the code of an op can do with its block before it ends in [eval] or an error.  Any Rust code of an op is such a
    tree: the answers are all it learns from the block's queues. *)
Inductive op A R :=
  | OEval (r : R)                                        (* blk.rs:250-263 *)
  | OFail                                                (* any error of its own *)
  | ONext (k : A -> op A R)                              (* next_arg()? *)
  | OTry (k : option A -> op A R)                        (* next_arg() with the error handled *)
  | OFlag (name : option str) (k : option str -> op A R) (* get_flag *)
  | OLen (k : nat -> op A R)                             (* args_len *)
  | OPeek (k : option A -> op A R)                       (* peek_next_arg_node *)
  | OLast (k : option A -> op A R)                       (* peek_last_arg_node *)
  | OInject (k : A -> op A R).                           (* inject_manual_var_next_arg, arg still on the stack *)
Arguments OFail {A R}.

(** blk.rs:279-303. *)
Definition finalise A (b : blk A) : res unit :=
  match b_flags b, b_args b with
  | _ :: _, _ => Err 2
  | [], _ :: _ => Err 3
  | [], [] => Ok tt
  end.

(** Something the op received, for the record: an argument taken, a flag taken. *)
Inductive got A := GArg (a : A) | GFlag (f : str).
Arguments GFlag {A}.

(** The op run against its block, with the record of what it took. *)
Fixpoint run_op A R (o : op A R) (b : blk A) : res R * list (got A) :=
  match o with
  | OEval _ r => match finalise b with Ok _ => (Ok r, []) | Err e => (Err e, []) | Panic => (Panic, []) end
  | OFail => (Err 4, [])
  | ONext k => match next_arg b with
               | Ok (a, b') => let (x, l) := run_op (k a) b' in (x, GArg a :: l)
               | Err e => (Err e, [])
               | Panic => (Panic, [])
               end
  | OTry k => match next_arg b with
              | Ok (a, b') => let (x, l) := run_op (k (Some a)) b' in (x, GArg a :: l)
              | _ => run_op (k None) b
              end
  | OFlag name k => match get_flag name b with
                    | (Some f, b') => let (x, l) := run_op (k (Some f)) b' in (x, GFlag f :: l)
                    | (None, b') => run_op (k None) b'
                    end
  | OLen k => run_op (k (length (b_args b))) b
  | OPeek k => run_op (k (match pop_end (b_args b) with Some (a, _) => Some a | None => None end)) b
  | OLast k => run_op (k (match b_args b with a :: _ => Some a | [] => None end)) b
  | OInject k => match pop_end (b_args b) with Some (a, _) => run_op (k a) b | None => (Err 1, []) end
  end.

(** comp/mod.rs:474-477 an intrinsic block. *)
Definition compile_intrinsic A R (o : op A R) (flags : list str) (args : list A) := run_op o (construct flags args).

(** ** A call of a definition *)
(** A parameter is lazy (an expression) or evaluated at the call. *)
Inductive pkind := PLazy | PCall.

(** What binding one parameter to its argument gives at this moment: done; the locals graph has to change first; the return
    type of the argument is not known yet (params.rs:203-224); an error. *)
Inductive pstat := PBound | PWait | PUnknown | PError.

Inductive injection := Success (callsite : list nat) | LgChange | UnknownReturnTy.

(** params.rs:106-147, the loop over the parameters; [args] is reversed; [idx] is a u8. *)
Fixpoint def_params A (st : A -> pstat) (params : list pkind) (idx : nat) (args : list A) (cps : list nat) (lg : bool)
  : res injection :=
  match params with
  | [] => match args with
          | _ :: _ => Err 3
          | [] => Ok (if lg then LgChange else Success cps)
          end
  | p :: rest =>
    match pop_end args with
    | None => Err 1
    | Some (a, args') =>
      match p, st a with
      | PLazy, PBound => def_params st rest (S idx) args' cps lg
      | PLazy, _ => def_params st rest (S idx) args' cps true
      | PCall, PBound => def_params st rest (S idx) args' (cps ++ [idx]) lg
      | PCall, PWait => def_params st rest (S idx) args' cps true
      | PCall, PUnknown => Ok UnknownReturnTy
      | PCall, PError => Err 4
      end
    end
  end.

(** params.rs:82-157. *)
Definition map_def_params A (st : A -> pstat) (params : list pkind) (flags : list str) (args : list A) : res injection :=
  match flags with
  | _ :: _ => Err 2
  | [] => def_params st params 0 (rev args) [] false
  end.

(** comp/mod.rs:474-503 with 521-556: the arguments evaluated at the call, if the body is compiled. *)
Definition compile_def A (args : list A) (entry : option (list nat)) : res (list A) :=
  fold_right (fun i r => let? l := r in match nth_error args i with Some a => Ok (a :: l) | None => Panic end) (Ok [])
    (match entry with Some cps => cps | None => [] end).

(** comp/mod.rs:125-167 seen from one call of a definition: in each pass the parameters are bound if they are not yet
    (params.rs:29-60), an error ends it; then, if the body has been compiled, so is the call. *)
Fixpoint def_passes A (params : list pkind) (flags : list str) (args : list A) (passes : list ((A -> pstat) * bool))
  (entry : option (list nat)) : res (list A) :=
  match passes with
  | [] => Err 4
  | (st, body) :: rest =>
    let? entry' := (match entry with
                    | Some _ => Ok entry
                    | None => match map_def_params st params flags args with
                              | Ok (Success cps) => Ok (Some cps)
                              | Ok _ => Ok None
                              | Err e => Err e
                              | Panic => Panic
                              end
                    end) in
    if body then compile_def args entry' else def_passes params flags args rest entry'
  end.
