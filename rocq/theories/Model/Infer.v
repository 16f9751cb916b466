(** Guessing an unknown type by trial compilation.  Models ogma/src/eng/comp/infer.rs: test_compile_types 256-318,
    trial_inferred_types 200-239, infer_inputs_tgt_shallow_expr 47-119, infer_outputs 122-182, assert_inference_depth
    184-188.

    The compiler itself is external here: what one trial does is an arbitrary function from the candidate type to an
    [outcome].  A set of types is iterated in hash order, so it is a list in an arbitrary order. *)
From Coq Require Import List Bool Arith.
Import ListNotations.
Set Implicit Arguments.

(** What happens with one candidate: the obligation cannot be applied to the type graph (infer.rs:291-294), the trial
    compiles, the trial fails, or it fails with the inference depth error (err.rs is_inference_depth_error). *)
Inductive outcome C := Unfit | Compiles (c : C) | Fails | TooDeep.
Arguments Unfit {C}. Arguments Fails {C}. Arguments TooDeep {C}.

(** infer.rs:191-196 [Error], together with the [Ok] side. *)
Inductive verdict T C := Chosen (c : C) | NoTypes | Ambiguous (valid : list T) | DepthLimit | Reduce (rm : list T).
Arguments Chosen {T C}. Arguments NoTypes {T C}. Arguments Ambiguous {T C}. Arguments DepthLimit {T C}. Arguments Reduce {T C}.

Section trial.
Variables (T C : Type) (eqb : T -> T -> bool) (f : T -> outcome C).

(** HashSet::remove. *)
Definition set_remove (t : T) (l : list T) := filter (fun x => negb (eqb t x)) l.

(** infer.rs:274-310, the loop over the candidates with its three accumulators, and 312-317, the end. *)
Fixpoint trials (types validset rm : list T) (inferred : option C) : verdict T C :=
  match types with
  | [] => match inferred, rm with
          | Some c, _ => Chosen c
          | None, _ :: _ => Reduce rm
          | None, [] => NoTypes
          end
  | t :: rest =>
    match f t with
    | Unfit => trials rest validset (rm ++ [t]) inferred
    | Compiles c => match inferred with
                    | Some _ => Ambiguous validset
                    | None => trials rest validset rm (Some c)
                    end
    | TooDeep => DepthLimit
    | Fails => trials rest (set_remove t validset) rm inferred
    end
  end.

(** infer.rs:256-318. *)
Definition test_compile_types (types : list T) := trials types types [] None.
End trial.

(** infer.rs:200-239: the candidates of an op that are struck off; [compiled], [infer_output], [lg_chg_req] are what the
    compilation of the block with this candidate reported. *)
Record report := { compiled : bool; infer_output : bool; lg_chg_req : bool }.
Definition trial_inferred_types {T} (f : T -> report) (set : list T) : list T :=
  filter (fun t => negb (compiled (f t)) && negb (infer_output (f t)) && negb (lg_chg_req (f t))) set.

(** What a round over several nodes ends with: a new compiler; removals to apply; an error with a node; the depth error; or
    nothing to do. *)
Inductive round N T C := Adopted (c : C) | Removals (rm : list (N * T)) | Failed (n : N) (v : verdict T C)
  | DeepError (n : N) | Nothing.
Arguments Adopted {N T C}. Arguments Removals {N T C}. Arguments Failed {N T C}. Arguments DeepError {N T C}. Arguments Nothing {N T C}.

Section rounds.
Variables (N T C : Type) (g : N -> verdict T C).

(** infer.rs:75-119 and 138-181, the two loops over nodes; [err] is the last error kept, [rm] the removals so far. *)
Fixpoint round_loop (nodes : list N) (err : option (N * verdict T C)) (rm : list (N * T)) : round N T C :=
  match nodes with
  | [] => match rm, err with
          | _ :: _, _ => Removals rm
          | [], Some (n, v) => Failed n v
          | [], None => Nothing
          end
  | n :: rest =>
    match g n with
    | Chosen c => Adopted c
    | Reduce ts => round_loop rest err (rm ++ map (pair n) ts)
    | DepthLimit => DeepError n
    | v => round_loop rest (Some (n, v)) rm
    end
  end.

(** infer.rs:48 and 123 with 184-188: five nested guesses are allowed. *)
Definition infer_round (depth : nat) (nodes : list N) : option (round N T C) :=
  if depth <? 5 then Some (round_loop nodes None []) else None.
End rounds.
