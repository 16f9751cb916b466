(** What blocks mean, by names: no slots, no environments, no compiled code.

    A name stands for a computation from an input to a value.  A variable that has been set ignores the input; a lazy
    parameter runs the argument of the call, in the scope of the call, on the input it is used with. *)
From Coq Require Import String List ZArith NArith Bool.
From Verif Require Import Model.Base Model.Value Model.Exec Model.Link.
Import ListNotations.
Set Implicit Arguments.

Section Named.
Variable W : Type.
Local Notation M := (M W).

Definition meaning : Type := value -> M value.
Definition nscope : Type := str -> option meaning.
Definition nothing : nscope := fun _ => None.
Definition constant (v : value) : meaning := fun _ => ret v.
Definition bound (x : str) (d : meaning) (r : nscope) : nscope := fun y => if str_eqb x y then Some d else r y.

(** Where a variable of a block is seen: in the blocks that follow, or in one argument. *)
Definition for_next (s : scope) : bool := match s with Next => true | InArg _ => false end.
Definition for_arg (i : nat) (s : scope) : bool := match s with Next => false | InArg j => Nat.eqb i j end.
(** The variables of a block with their present values.  A variable of a last block (no slot) is never seen. *)
Fixpoint seen (p : scope -> bool) (vars : list bvar) (vals : list value) (r : nscope) : nscope :=
  match vars, vals with
  | x :: vars, v :: vals =>
      seen p vars vals
        (if p (bv_scope x)
         then match bv_slot x with Some _ => bound (bv_name x) (constant v) r | None => r end
         else r)
  | _, _ => r
  end.

Fixpoint replace (i : nat) (v : value) (vals : list value) : list value :=
  match vals, i with
  | [], _ => []
  | _ :: vals, 0 => v :: vals
  | x :: vals, S i => x :: replace i v vals
  end.

(** What an op does, given the meaning of its arguments for every content of its variables. *)
Fixpoint act_means (args : list (list value -> meaning)) (a : act W) (vals : list value) : M (value * list value) :=
  match a with
  | Done v => ret (v, vals)
  | Fail n => fail n
  | Crash => crash
  | Resolve i input k =>
      match nth_error args i with
      | Some d => bind (d vals input) (fun v => act_means args (k v) vals)
      | None => crash
      end
  | SetVar i v k => if Nat.ltb i (length vals) then act_means args k (replace i v vals) else crash
  | Ask f k => fun w => let (w, v) := f w in act_means args (k v) vals w
  end.

(** The parameters of a call: each argument that is evaluated at the call is evaluated once, in order, on the input of the
    call; a lazy one is not evaluated. *)
Fixpoint params_mean (ps : list (str * pkind)) (ds : list meaning) (input : value) (r : nscope) : M nscope :=
  match ps, ds with
  | (x, Eager _) :: ps, d :: ds =>
      bind (d input) (fun v => params_mean ps ds input (bound x (constant v) r))
  | (x, Lazy) :: ps, d :: ds => params_mean ps ds input (bound x d r)
  | _, _ => ret r
  end.

(** A block gives its output and the names seen by the blocks after it.  The body of a definition sees the parameters and
    nothing else. *)
Fixpoint blk_means (b : blk W) (r : nscope) (input : value) {struct b} : M (value * nscope) :=
  match b with
  | BOp vars args f =>
      bind (act_means
              ((fix go (i : nat) (args : list (arg W)) : list (list value -> meaning) :=
                  match args with
                  | [] => []
                  | a :: args => (fun vals => arg_means a (seen (for_arg i) vars vals r)) :: go (S i) args
                  end) 0 args)
              (f input) (map (fun _ => VNil) vars))
        (fun p => ret (fst p, seen for_next vars (snd p) r))
  | BCall params args body =>
      bind (params_mean params (map (fun a => arg_means a r) args) input nothing) (fun r' =>
      bind ((fix go (bs : list (blk W)) (r : nscope) (v : value) : M value :=
               match bs with
               | [] => ret v
               | b :: bs => bind (blk_means b r v) (fun p => go bs (snd p) (fst p))
               end) body r' input)
        (fun v => ret (v, r)))
  end
with arg_means (a : arg W) (r : nscope) {struct a} : meaning :=
  match a with
  | ALit v => constant v
  | AVar x => match r x with Some d => d | None => fun _ => crash end
  | AExpr e => fun input =>
      (fix go (bs : list (blk W)) (r : nscope) (v : value) : M value :=
         match bs with
         | [] => ret v
         | b :: bs => bind (blk_means b r v) (fun p => go bs (snd p) (fst p))
         end) e r input
  end.

Fixpoint means (bs : list (blk W)) (r : nscope) (v : value) : M value :=
  match bs with
  | [] => ret v
  | b :: bs => bind (blk_means b r v) (fun p => means bs (snd p) (fst p))
  end.

(** Every variable is bound where it is used or is one of [names], and every call has as many arguments as the definition has parameters. *)
Definition adds (p : scope -> bool) (vars : list bvar) (names : str -> bool) : str -> bool :=
  fun x => existsb (fun v => p (bv_scope v) && match bv_slot v with Some _ => true | None => false end
                             && str_eqb (bv_name v) x) vars || names x.
Definition after (b : blk W) (names : str -> bool) : str -> bool :=
  match b with BOp vars _ _ => adds for_next vars names | BCall _ _ _ => names end.
Fixpoint scoped_blk (names : str -> bool) (b : blk W) : bool :=
  match b with
  | BOp vars args _ =>
      (fix go (i : nat) (args : list (arg W)) : bool :=
         match args with
         | [] => true
         | a :: args => scoped_arg (adds (for_arg i) vars names) a && go (S i) args
         end) 0 args
  | BCall ps args body =>
      forallb (scoped_arg names) args && Nat.eqb (length ps) (length args) &&
      (fix go (names : str -> bool) (bs : list (blk W)) : bool :=
         match bs with
         | [] => true
         | b :: bs => scoped_blk names b && go (after b names) bs
         end) (fun x => existsb (fun p => str_eqb (fst p) x) ps) body
  end
with scoped_arg (names : str -> bool) (a : arg W) : bool :=
  match a with
  | ALit _ => true
  | AVar x => names x
  | AExpr e =>
      (fix go (names : str -> bool) (bs : list (blk W)) : bool :=
         match bs with
         | [] => true
         | b :: bs => scoped_blk names b && go (after b names) bs
         end) names e
  end.
Fixpoint scoped (names : str -> bool) (bs : list (blk W)) : bool :=
  match bs with
  | [] => true
  | b :: bs => scoped_blk names b && scoped (after b names) bs
  end.

(** Passing the arguments of a call: those for plain parameters are evaluated, once and in order, on the input of the call;
    the others are passed on as they are.  What each parameter stands for in the body: *)
Inductive passed (v : value) : list (str * pkind) -> list meaning -> W -> list (str * meaning) -> W -> Prop :=
| passed_none w : passed v [] [] w [] w
| passed_eager x s ps d ds w u w1 l w2 :
    d v w = (w1, Ok u) -> passed v ps ds w1 l w2 -> passed v ((x, Eager s) :: ps) (d :: ds) w ((x, constant u) :: l) w2
| passed_lazy x ps d ds w l w' :
    passed v ps ds w l w' -> passed v ((x, Lazy) :: ps) (d :: ds) w ((x, d) :: l) w'.
(** the scope that has these names and no others *)
Fixpoint only (l : list (str * meaning)) : nscope :=
  match l with
  | [] => nothing
  | (x, d) :: l => fun y => if str_eqb x y then Some d else only l y
  end.

End Named.
