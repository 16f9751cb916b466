(** A few intrinsics in terms of the interface of ArgApi.v, for examples. *)
From Coq Require Import String List ZArith NArith Bool Arith.
From Verif Require Import Model.Base Model.Value Model.Ast Model.Registry Model.AstGraph Model.TyBuild Model.Compile Model.ArgApi Spec.TyBuildSpec Proofs.RegistrySamples.
From Verif Require Model.TyGraph Model.Locals.
Import ListNotations.

(** What the intrinsics below compile to. *)
Inductive code := CAdd (l : list argument) | CIn (a : argument) | CLet (bs : list (ty * option nat * argument)) (tr : option (ty * option nat)) | CRow | CGet (t : tkey) | CTab | CFold (seed : argument) (row : ty*nat) (acc : argument).
Notation prog := (prog code).
(** [?] *)
Definition ok {X} (k : X -> prog) (r : X + cerr) : prog := match r with inl x => k x | inr e => PFail code e end.
(** a type for what it is compared by *)
Definition rep (k : tkey) : ty := match k with KNil => TNil | KBool => TBool | KNum => TNum | KStr => TStr | KTab => TTab | KTabRow => TTabRow | KDef n => TDef (TyDef n (TSum [])) end.
(** mod.rs:95-107: all arguments are for the input and return this type *)
Fixpoint take_args (n : nat) (ty : tkey) (acc : list argument) (k : list argument -> prog) : prog :=
  match n with
  | 0 => k acc
  | S n => PNext (ok (fun b => PSupplied b None (ok (fun b => PReturns b ty (ok (fun b => PConcrete b (ok (fun a => take_args n ty (acc ++ [a]) k))))))))
  end.
(** pipeline.rs:404-416 *)
Fixpoint let_args (n : nat) (acc : list (ty * option nat * argument)) (k : list (ty * option nat * argument) -> prog) : prog :=
  match n with
  | 0 => k acc
  | S n => PNext (ok (fun b => PSupplied b None (ok (fun b => PConcrete b (ok (fun e =>
           PNext (ok (fun b => PCreate (b_node b) (rep (ar_out e)) (ok (fun v => let_args n (acc ++ [(v, e)]) k))))))))))
  end.
Definition soft : cerr := CErr false false 1.
Definition hardt : cerr := CErr true false 2.
Section B.
Variable g : graph.
(** [+] on numbers (ogma/src/lang/impls/intrinsics/mod.rs:72-108), [\] (pipeline.rs:280-283), [let] (pipeline.rs:384-440, but for the help),
    [get] (pipeline.rs:68-98; without a default, and a flag stands for Num), [fold] (morphism.rs:547-568); [row] makes a row of a table and
    [tab] a table. *)
Definition program (c : comp code binding cparam) (cmd : nat) (t : tkey) : prog :=
  let len := match get_args g cmd with Ok l => length l | _ => 0 end in
  match node g cmd with
  | Some (NIntrinsic _ (IBuiltin 0)) => (* + *)
      if tkey_eqb t KNum then PSays KNum (if len =? 0 then PFail code err_few_args else POblige None (take_args len KNum [] (fun l => PEval KNum (CAdd l)))) else PFail code hardt
  | Some (NIntrinsic _ (IBuiltin 1)) => (* \ *)
      PNext (ok (fun b => PSupplied b None (ok (fun b => PConcrete b (ok (fun a => PSays (ar_out a) (PEval (ar_out a) (CIn a))))))))
  | Some (NIntrinsic _ (IBuiltin 2)) => (* let *)
      PAddsVars false (PSays t (POblige None (let_args (Nat.div2 len) [] (fun bs =>
        if Nat.even len then PVarsAdded (PEval t (CLet bs None))
        else PNext (ok (fun b => PCreate (b_node b) (rep t) (ok (fun v => PVarsAdded (PEval t (CLet bs (Some v)))))))))))
  | Some (NIntrinsic _ (IBuiltin 3)) => PSays KTabRow (PEval KTabRow CRow)
  | Some (NIntrinsic _ (IBuiltin 4)) => (* get on rows *)
      if tkey_eqb t KTabRow then
      PNext (ok (fun b => PSupplied b (Some KNil) (ok (fun b => PReturns b KStr (ok (fun b => PConcrete b (ok (fun a =>
      PFlag None (fun f => match f with Some _ => PEval KNum (CGet KNum) | None => POutput (fun o => match o with Some u => PEval u (CGet u) | None => PFail code soft end) end)))))))))
      else PFail code hardt
  | Some (NIntrinsic _ (IBuiltin 5)) => PSays KTab (PEval KTab CTab)
  | Some (NIntrinsic _ (IBuiltin 6)) => (* fold *)
      PAddsVars true (if tkey_eqb t KTab then PNext (ok (fun b => PDecouple b (PSupplied b (Some KNil) (ok (fun b => PConcrete b (ok (fun s =>
        PSays (ar_out s) (PPeek (fun n _ => match n with None => PFail code err_few_args | Some n =>
        PInject n (lit "row") TTabRow (ok (fun v => PVarsAdded (PNext (ok (fun b => PSupplied b (Some (ar_out s)) (ok (fun b => PReturns b (ar_out s) (ok (fun b =>
        PConcrete b (ok (fun a => PEval (ar_out s) (CFold s v a)))))))))))) end))))))))) else PFail code hardt)
  | _ => PFail code soft
  end.
Definition intr (c : comp code binding cparam) (cmd : nat) (t : tkey) := shown (run_intrinsic g c cmd t (program c cmd t)).
Definition cargs c d t := shown (call_args (P:=code) g c d t).
Definition mparams c d := shown (map_params (P:=code) g rep c d).
End B.
Definition prim (n : nat) : impl := IIntrinsic LOgma (IBuiltin n).
Definition tyent_of (n : string) (t : ty) : str * tyent := (lit n, TyBase t).
Definition few : types := [tyent_of "Nil" TNil; tyent_of "Bool" TBool; tyent_of "Num" TNum; tyent_of "Str" TStr; tyent_of "Table" TTab; tyent_of "TableRow" TTabRow].
Definition udef (n : string) (i : option string) (ps : list (string * option string)) (bs : list block) : impl :=
  IDef (Defn file (lit n) (option_map lit i) (map (fun p => (lit (fst p), option_map lit (snd p))) ps) (ex bs)).
Definition base : impls := [(lit "+", Keys [(TNum, prim 0)] None); (lit "\", Keys [] (Some (prim 1))); (lit "let", Keys [] (Some (prim 2)));
   (lit "row", Keys [(TTab, prim 3)] None); (lit "get", Keys [(TTabRow, prim 4)] None); (lit "tab", Keys [] (Some (prim 5))); (lit "fold", Keys [(TTab, prim 6)] None)].
Definition run (ds : impls) (e : expr) :=
  match start (Defs (ds ++ base) few) e KNil [] with
  | Ok (g, tg) => Some (let! r := compile_root g (intr g) (cargs g) (mparams g) (fun m => m) (fun l => l) 60 tg [] in Good (ty_at (fst r) 0 TyGraph.Out_, snd r))
  | _ => None
  end.
Definition flag (x : string) : term := TFlag (tg x).
Definition ident (x : string) : term := TArg (AIdent (tg x)).
Definition any (n : string) ps bs : str * keys := (lit n, Keys [] (Some (udef n None ps bs))).

Lemma few_literals : has_literal_types few.
Proof.
  intros t [<-|[<-|[<-|[<-|[]]]]]; [exists (lit "Nil")|exists (lit "Bool")|exists (lit "Num")|exists (lit "Str")]; vm_compute; reflexivity.
Qed.
(** The type an expression is compiled for, besides. *)
Definition run_at (ds : impls) (e : expr) (n : nat) :=
  match start (Defs (ds ++ base) few) e KNil [] with
  | Ok (g, tg) => Some (let! r := compile_root g (intr g) (cargs g) (mparams g) (fun m => m) (fun l => l) 60 tg [] in Good (ty_at (fst r) n TyGraph.In_, snd r))
  | _ => None
  end.
Definition pin : term := TArg (APound 105%N (tg "i")).
