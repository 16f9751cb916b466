(** From blocks with named variables to steps with slots.

    A block here is one whose op has been chosen and compiled: an intrinsic is the closure it made (with the variables it
    has created and the arguments it has taken), a call of a definition carries the blocks of the definition.  Which slot a
    binder got is part of the block; C32 says the slots of one compilation differ. *)
From Coq Require Import String List ZArith NArith Bool.
From Verif Require Import Model.Base Model.Value Model.Exec.
Import ListNotations.
Set Implicit Arguments.

(** eng/blk.rs:135-183 [create_var_ref]: the variable is there from the next block on;
    192-216 [inject_manual_var_into_arg_locals]: it is there in one argument. *)
Inductive scope := Next | InArg (i : nat).
Record bvar := BVar { bv_name : str; bv_slot : option nat; bv_scope : scope }.

(** eng/comp/params.rs:1-17, 119-134: a parameter is evaluated at the call, into a slot, or lazy. *)
Inductive pkind := Eager (slot : nat) | Lazy.

Section Link.
Variable W : Type.

(** eng/graphs/astgraph.rs:21-39 as far as arguments go: literals, variables, expressions ([#i] is
    the expression that passes its input through, arg.rs:247-266). *)
Inductive blk : Type :=
| BOp (vars : list bvar) (args : list arg) (f : value -> act W)
| BCall (params : list (str * pkind)) (args : list arg) (body : list blk)
with arg : Type :=
| ALit (v : value)
| AVar (x : str)
| AExpr (e : list blk).

(** What a name stands for while compiling (eng/var.rs:7-11 [Local]): a slot, or (by way of [Ptr]) the argument that was
    given at the call. *)
Definition cscope : Type := str -> option (hold W).
Definition empty : cscope := fun _ => None.
Definition upd {A} (x : str) (a : A) (g : str -> option A) : str -> option A :=
  fun y => if str_eqb x y then Some a else g y.

(** the variables of the block that are seen at a place; one that is not to be consumed (no next block) has no slot *)
Definition is_next (s : scope) : bool := match s with Next => true | InArg _ => false end.
Definition is_in (i : nat) (s : scope) : bool := match s with Next => false | InArg j => Nat.eqb i j end.
Definition see (p : scope -> bool) (vars : list bvar) (g : cscope) : cscope :=
  fold_left (fun g v => if p (bv_scope v)
                        then match bv_slot v with Some s => upd (bv_name v) (HVar s) g | None => g end
                        else g) vars g.

(** eng/comp/params.rs:108-134 and eng/comp/mod.rs:521-556: the scope of the body, and the arguments to
    evaluate at the call. *)
Fixpoint enter (ps : list (str * pkind)) (hs : list (hold W)) (g : cscope)
  : res (list (option nat * hold W) * cscope) :=
  match ps, hs with
  | [], [] => Ok ([], g)
  | (x, Eager s) :: ps, h :: hs =>
      let? r := enter ps hs (upd x (HVar s) g) in Ok ((Some s, h) :: fst r, snd r)
  | (x, Lazy) :: ps, h :: hs => enter ps hs (upd x h g)
  | [], _ :: _ => Err 2
  | _ :: _, [] => Err 1
  end.

(** eng/comp/mod.rs:463-503 [compile_block], eng/arg.rs:42-57, 205-280 [follow_local_arg_ptr],
    [map_astnode_into_hold]; error 3: no such variable. *)
Fixpoint link_blk (g : cscope) (b : blk) {struct b} : res (step W * cscope) :=
  match b with
  | BOp vars args f =>
      let? hs := (fix go (i : nat) (args : list arg) : res (list (hold W)) :=
                    match args with
                    | [] => Ok []
                    | a :: args => let? h := link_arg (see (is_in i) vars g) a in
                                   let? hs := go (S i) args in Ok (h :: hs)
                    end) 0 args in
      Ok (Op hs (map bv_slot vars) f, see is_next vars g)
  | BCall params args body =>
      let? hs := (fix go (args : list arg) : res (list (hold W)) :=
                    match args with
                    | [] => Ok []
                    | a :: args => let? h := link_arg g a in let? hs := go args in Ok (h :: hs)
                    end) args in
      let? r := enter params hs empty in
      let? code := (fix go (g : cscope) (bs : list blk) : res (list (step W)) :=
                      match bs with
                      | [] => Ok []
                      | b :: bs => let? r := link_blk g b in
                                   let? l := go (snd r) bs in Ok (fst r :: l)
                      end) (snd r) body in
      Ok (Def (fst r) code, g)
  end
with link_arg (g : cscope) (a : arg) {struct a} : res (hold W) :=
  match a with
  | ALit v => Ok (HLit v)
  | AVar x => match g x with Some h => Ok h | None => Err 3 end
  | AExpr e =>
      let? code := (fix go (g : cscope) (bs : list blk) : res (list (step W)) :=
                      match bs with
                      | [] => Ok []
                      | b :: bs => let? r := link_blk g b in
                                   let? l := go (snd r) bs in Ok (fst r :: l)
                      end) g e in
      Ok (HExpr code)
  end.

(** eng/comp/mod.rs:420-460: the steps of the blocks of an expression, in order *)
Fixpoint link (g : cscope) (bs : list blk) : res (list (step W)) :=
  match bs with
  | [] => Ok []
  | b :: bs => let? r := link_blk g b in let? l := link (snd r) bs in Ok (fst r :: l)
  end.

(** All slots that are given to binders in the blocks. *)
Definition var_slots (vars : list bvar) : list nat :=
  flat_map (fun v => match bv_slot v with Some s => [s] | None => [] end) vars.
Definition param_slots (ps : list (str * pkind)) : list nat :=
  flat_map (fun p => match snd p with Eager s => [s] | Lazy => [] end) ps.
Fixpoint slots_blk (b : blk) : list nat :=
  match b with
  | BOp vars args _ => var_slots vars ++ flat_map slots_arg args
  | BCall ps args body => param_slots ps ++ flat_map slots_arg args ++ flat_map slots_blk body
  end
with slots_arg (a : arg) : list nat :=
  match a with
  | ALit _ | AVar _ => []
  | AExpr e => flat_map slots_blk e
  end.
Definition slots (bs : list blk) : list nat := flat_map slots_blk bs.

End Link.
Arguments ALit {W} v.
Arguments AVar {W} x.
