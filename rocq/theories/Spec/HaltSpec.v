(** What the parts of the compiler that are outside of the model may ask for when they cannot go on yet. *)
From Coq Require Import List Bool Arith.
From Verif Require Import Model.Base Model.Value Model.Ast Model.Registry Model.AstGraph Model.TyBuild Model.Compile.
From Verif Require Model.TyGraph Model.Locals.
Import ListNotations.
Set Implicit Arguments.

(** The body of a definition. *)
Definition body (g : graph) (n : nat) : Prop := exists d, def_expr g d = Ok n.

(** No variable of this name has been introduced at the node itself. *)
Definition unnamed (lg : Locals.lgraph) (x : str) (n : nat) : Prop :=
  forall v l, nth_error (Locals.lg_nodes lg) n = Some v -> alookup str_eqb x (Locals.va_map v) = Some l -> Locals.lo_def l <> n.

Section Modest.
Variables (P A Q : Type) (names : list str) (told : TyGraph.slot -> bool).
Notation comp := (comp P A Q).

(** The type of this side has not been settled yet. *)
Definition loose (c : comp) (p : TyGraph.slot) : Prop :=
  match TyGraph.kn_at (fst (c_tg c)) p with Some TyGraph.Any | Some (TyGraph.Inferred _) => True | _ => False end.

(** A type can be given to a side in two ways: it is said to be of that type, or obliged to be. Once it is settled only one of
    the two may still be asked for, [told] says which. (Arguments are only told while there are several types left (arg.rs:88-157),
    a block tells its own output and obliges its arguments (blk.rs:58-71, 229-236).) Variables are only introduced once, under one of finitely
    many names (locals_graph.rs [new_var], [new_lazy]); no types are added to the graph. *)
Definition modest (c : comp) (a : ask) : Prop :=
  match a with
  | AskInput n _ => told (n, TyGraph.In_) = true \/ loose c (n, TyGraph.In_)
  | AskObliged n _ => told (n, TyGraph.In_) = false \/ loose c (n, TyGraph.In_)
  | AskOutput n _ => told (n, TyGraph.Out_) = true \/ loose c (n, TyGraph.Out_)
  | AskReturns n _ => told (n, TyGraph.Out_) = false \/ loose c (n, TyGraph.Out_)
  | AskAnon _ => False
  | AskVar x _ n => In x names /\ unnamed (c_lg c) x n
  | AskLazy x _ n => In x names /\ unnamed (c_lg c) x n
  | AskSeal _ => True
  | AskBreak _ _ => True
  end.

(** An intrinsic which gives up for now is modest. *)
Definition modest_intrinsics (intr : comp -> nat -> tkey -> option (reply (tkey * P))) : Prop :=
  forall c cmd t r, intr c cmd t = Some r -> (exists e, r_res r = inr e) -> Forall (modest c) (r_asks r).
Definition modest_calls (call_args : comp -> nat -> tkey -> option ((list A + cerr) * list ask)) : Prop :=
  forall c d t r, call_args c d t = Some r -> (exists e, fst r = inr e) -> Forall (modest c) (snd r).
Definition modest_params (map_params : comp -> nat -> option ((injection Q + cerr) * list ask)) : Prop :=
  forall c d r, map_params c d = Some r -> Forall (modest c) (snd r).
End Modest.
