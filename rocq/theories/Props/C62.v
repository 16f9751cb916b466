(** C62: types written next to blocks and expressions are never ignored. *)
From Coq Require Import String List NArith ZArith Bool Arith Lia.
From Verif Require Import Model.Base Model.Value Model.Ast Model.Registry Model.AstGraph Model.TyBuild
  Spec.RegistrySpec Spec.AstGraphSpec Spec.TyBuildSpec Spec.AstNoteSpec Proofs.RegistrySamples Proofs.AstNoteProofs Proofs.AstNoteTypes.
From Verif Require Model.TyGraph Spec.TyGraphSpec.
Import ListNotations.

(** What is asked of the type graph is what is written in the expression and in the bodies of the definitions it may use, and
    nothing else. *)
Theorem C62_noted : forall s e g cs, init s e = Ok (g, cs) ->
  noted (df_types s) g cs 0 e /\
  forall o k c, In (k, c) (keyed g o) -> exists t i ks, node g o = Some (NOp t) /\ In (tg_str t, ks) (df_impls s) /\ In (k, i) (registered ks) /\
    shows_impl g c i /\ noted_impl (df_types s) g cs c i /\ forall ch, In ch cs -> chg_at ch <> c.
Proof. exact (fun s e g cs H => match init_notes s e g cs H with conj a (conj _ b) => conj a b end). Qed.
Print Assumptions C62_noted.

(** A type that is not defined is an error. *)
Theorem C62_unknown : forall s e x r, written e x -> get_type (df_types s) (tg_str x) = None -> init s e <> Ok r.
Proof. exact unknown_refused. Qed.
Print Assumptions C62_unknown.

(** The compilation begins exactly when each input type written is one the op has an implementation for; otherwise it is
    reported as a conflict. *)
Theorem C62_refused : forall s e root anon g cs, init s e = Ok (g, cs) -> has_literal_types (df_types s) ->
  ((forall n t, In (ObligeInput n t) cs -> takes g n t) -> exists tg, start s e root anon = Ok (g, tg)) /\
  ((exists n t, In (ObligeInput n t) cs /\ ~ takes g n t) -> start s e root anon = Err 103).
Proof. exact start_result. Qed.
Print Assumptions C62_refused.

(** Whatever the compiler does to the type graph afterwards, with or without success, a side a type was written for has that
    type. *)
Theorem C62_held : forall s e root anon g tg xs, start s e root anon = Ok (g, tg) -> has_literal_types (df_types s) ->
  let tg' := fst (fst (TyGraph.compile_history tkey_eqb (tg, []) xs)) in
  let fixes n e := forall p x, written_at g n e p x -> exists t, get_type (df_types s) (tg_str x) = Some t /\ TyGraphSpec.settled tg' p (key_of t) in
  fixes 0 e /\
  forall o k c, In (k, c) (keyed g o) -> exists t i ks, node g o = Some (NOp t) /\ In (tg_str t, ks) (df_impls s) /\ In (k, i) (registered ks) /\
    match i with IDef d => exists n, children g c = [n] /\ fixes n (d_expr d) | IIntrinsic _ _ => True end.
Proof. exact held. Qed.
Print Assumptions C62_held.

Definition typed_blk (op : string) (ts : list term) (i o : option string) : block := BPrefix (OpSingle (tg op)) ts (option_map tg i) (option_map tg o).
(** [get x | eq { \ 3 }], with types written for the output of [get], the input of [eq] and the output of the argument. *)
Definition noted_expr_sample := ex [typed_blk "get" [TArg (AIdent (tg "x"))] None (Some "Str"); typed_blk "eq" [TArg (AExpr (Expr (tg "") [blk "\" [num 3]] (Some (tg "Num"))))] (Some "Str") None]%string.
Example C62_example : exists g tg,
  start sample noted_expr_sample KNil [] = Ok (g, tg) /\ has_literal_types (df_types sample) /\
  map (TyGraph.kn_at tg) [(1, TyGraph.Out_); (3, TyGraph.In_); (4, TyGraph.Out_); (3, TyGraph.Out_)] =
    [Some (TyGraph.Obliged KStr); Some (TyGraph.Obliged KStr); Some (TyGraph.Obliged KNum); Some (TyGraph.Inferred (full base_types))] /\
  written_at g 0 noted_expr_sample (4, TyGraph.Out_) (RegistrySamples.tg "Num").
Proof.
  do 2 eexists. split; [vm_compute; reflexivity|]. split.
  { intros t [<-|[<-|[<-|[<-|[]]]]]; [exists (lit "Nil")|exists (lit "Bool")|exists (lit "Num")|exists (lit "Str")]; vm_compute; reflexivity. }
  split; [vm_compute; reflexivity|]. apply wa_sub with (i := 1) (o := 3) (b := typed_blk "eq" [TArg (AExpr (Expr (tg "") [blk "\" [num 3]] (Some (tg "Num"))))] (Some "Str"%string) None)
    (j := 0) (a := 4) (e' := Expr (tg "") [blk "\" [num 3]] (Some (tg "Num"))); try reflexivity. constructor. reflexivity.
Qed.
(** [eq Bool:…]: there is no [eq] for booleans. *)
Example C62_refused_example : start sample (ex [typed_blk "eq" [num 1] (Some "Bool"%string) None]) KNil [] = Err 103.
Proof. vm_compute. reflexivity. Qed.
Example C62_unknown_example : let e := ex [blk "\" [sub [typed_blk "\" [num 1] None (Some "Foo"%string)]]] in
  written e (tg "Foo") /\ get_type (df_types sample) (lit "Foo") = None.
Proof.
  split; [|vm_compute; reflexivity]. apply written_sub with (b := blk "\" [sub [typed_blk "\" [num 1] None (Some "Foo"%string)]]) (e' := ex [typed_blk "\" [num 1] None (Some "Foo"%string)]);
    [now left|now left|]. apply written_block with (b := typed_blk "\" [num 1] None (Some "Foo"%string)); [now left|]. right. reflexivity.
Qed.
