(** Programs of the intrinsics, for examples. *)
From Coq Require Import String List ZArith NArith Bool Arith Permutation.
From Verif Require Import Model.Base Model.Value Model.Ast Model.Registry Model.AstGraph Model.TyBuild Model.Compile Model.ArgApi Model.Ops Spec.TyBuildSpec Proofs.RegistrySamples.
From Verif Require Model.TyGraph Model.Locals.
Import ListNotations.

Definition numbered : list (nat * (str * option ty * op)) := combine (seq 0 (length intrinsics)) intrinsics.
Definition add (m : impls) (x : nat * (str * option ty * op)) : res impls :=
  match x with (n, (x, k, o)) => insert_intrinsic true m x k LOgma (IBuiltin n) end.
Fixpoint add_all (m : impls) (l : list (nat * (str * option ty * op))) : res impls :=
  match l with [] => Ok m | x :: l => let? m := add m x in add_all m l end.
(** The intrinsics of these names *)
Definition some_of (l : list string) : impls :=
  match add_all [] (filter (fun x => existsb (fun y => str_eqb (lit y) (fst (fst (snd x)))) l) numbered) with Ok m => m | _ => [] end.
(** a type for what it is compared by *)
Definition rep (k : tkey) : ty :=
  match k with
  | KNil => TNil | KBool => TBool | KNum => TNum | KStr => TStr | KTab => TTab | KTabRow => TTabRow
  | KDef n => if str_eqb n (lit "Ord") then TOrd else TDef (TyDef n (TSum []))
  end.
Definition named (x : str) : option ty := if str_eqb x (lit "Num") then Some TNum else if str_eqb x (lit "Str") then Some TStr else None.
(** Any two things compare. *)
Definition compares (i : injected) (t : tkey) : tkey + cerr := inl match i with InjTupleEq _ => KBool | _ => KOrd end.
Definition flag (x : string) : term := TFlag (tg x).
Definition id (s : string) : term := TArg (AIdent (tg s)).
Definition pin : term := TArg (APound 105%N (tg "#i")).
Definition yes : term := TArg (APound 116%N (tg "#t")).
Definition few : types := [(lit "Nil", TyBase TNil); (lit "Bool", TyBase TBool); (lit "Num", TyBase TNum); (lit "Str", TyBase TStr); (lit "Table", TyBase TTab); (lit "TableRow", TyBase TTabRow)].
Definition run (l : list string) (e : expr) :=
  match start (Defs (some_of l) few) e KNil [] with
  | Ok (g, tg) => Some (let! r := compile_root g (fun c cmd t => shown (run_intrinsic g c cmd t (ops_prog g rep named (fun _ => true) (fun _ => compares) c cmd t)))
      (fun c d t => shown (call_args g c d t)) (fun c d => shown (map_params g rep c d)) (fun m => m) (fun l => l) 60 tg [] in Good (ty_at (fst r) 0 TyGraph.Out_, snd r))
  | _ => None
  end.
(** The graph of a program, and the compiler once this block or expression is compiled *)
Definition upto (l : list string) (e : expr) (brk : nat) :=
  match start (Defs (some_of l) few) e KNil [] with
  | Ok (g, tg) => Some (g, tg, let! c := fresh code binding cparam g (fun m => m) tg [] in
      compile g (fun c cmd t => shown (run_intrinsic g c cmd t (ops_prog g rep named (fun _ => true) (fun _ => compares) c cmd t)))
      (fun c d t => shown (call_args g c d t)) (fun c d => shown (map_params g rep c d)) (fun m => m) (fun l => l) 60 c brk)
  | _ => None
  end.
