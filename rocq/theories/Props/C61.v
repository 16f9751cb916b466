(** C61: the type graph a compilation starts from. *)
From Coq Require Import String List NArith ZArith Bool Arith Lia.
From Verif Require Import Model.Base Model.Value Model.Ast Model.Registry Model.AstGraph Model.TyBuild
  Spec.RegistrySpec Spec.AstGraphSpec Spec.TyBuildSpec Proofs.RegistrySamples Proofs.TyBuildNodes Proofs.TyBuildProofs.
From Verif Require Import Model.TyGraph Spec.TyGraphSpec.
Import ListNotations.

(** For every expression whose graph can be built the type graph can be: types flow along exactly the listed connections, and
    each node starts with what is known of it. *)
Theorem C61_start : forall s e g cs root, AstGraph.init s e = Ok (g, cs) -> has_literal_types (df_types s) ->
  exists tg, init_tg g (full (df_types s)) root = Ok tg /\
  length (nodes tg) = length (g_nodes g) /\ anon_tys tg = [] /\
  (forall a b f, In (Build_edge a b f) (edges tg) <-> carries g a b f) /\
  forall n x, AstGraph.node g n = Some x -> exists i o, kn_at tg (n, In_) = Some i /\ kn_at tg (n, Out_) = Some o /\
    start_input g (full (df_types s)) root n x i /\ start_output (full (df_types s)) x o.
Proof. exact built. Qed.
Print Assumptions C61_start.

(** The types considered are those defined, whatever the order they were defined in. *)
Theorem C61_types : forall ts, NoDup (map fst ts) -> forall k, In k (full ts) <-> exists n t, get_type ts n = Some t /\ key_of t = k.
Proof. exact full_types. Qed.
Print Assumptions C61_types.

(** The types of literals are there after any commands, so building never panics. *)
Theorem C61_literals : forall cs s, wf s ->
  (forall t, In t [TNil; TBool; TNum; TStr] -> exists n, alookup str_eqb n (df_types s) = Some (TyBase t)) ->
  has_literal_types (df_types (snd (run false s cs))).
Proof. exact literal_types_run. Qed.
Print Assumptions C61_literals.

(** Whenever the compiler has resolved the types without an error, after whatever it has done before, a type known on one end of a
    connection is known on the other; between two inputs this holds both ways. *)
Theorem C61_pipeline : forall s e root anon g tg xs st, start s e root anon = Ok (g, tg) -> has_literal_types (df_types s) ->
  Forall (compiler_step g) xs -> compile_history tkey_eqb (tg, []) (xs ++ [CResolve tkey]) = (st, Ok tt) ->
  forall a b f t, carries g a b f -> let e := Build_edge a b f in
  (settled (fst st) (fst (feeds e)) t -> settled (fst st) (snd (feeds e)) t) /\
  (f = II -> settled (fst st) (snd (feeds e)) t -> settled (fst st) (fst (feeds e)) t).
Proof. exact start_flows. Qed.
Print Assumptions C61_pipeline.

Lemma sample_literals : forall t, In t [TNil; TBool; TNum; TStr] -> exists n, alookup str_eqb n (df_types sample) = Some (TyBase t).
Proof.
  intros t [<-|[<-|[<-|[<-|[]]]]]; [exists (lit "Nil")|exists (lit "Bool")|exists (lit "Num")|exists (lit "Str")]; vm_compute; reflexivity.
Qed.

(** [\ 5 | = { \ 3 }] on Nil.  Once the output of the first block is known to be Num, so is the input of the second, of the body of
    [=], of [eq] in it, and of the argument. *)
Definition piped := ex [blk "\" [num 5]; blk "=" [sub [blk "\" [num 3]]]].
Example C61_example : exists g tg,
  start sample piped KNil [] = Ok (g, tg) /\ has_literal_types (df_types sample) /\
  kn_at tg (0, In_) = Some (Known KNil) /\ kn_at tg (2, Out_) = Some (Known KNum) /\
  kn_at tg (10, In_) = Some (Inferred [KNum; KStr]) /\ length (edges tg) = 12 /\
  Forall (compiler_step g) [CResolve tkey; CChanges [ObligeOutput 1 KNum]] /\
  match compile_history tkey_eqb (tg, []) [CResolve tkey; CChanges [ObligeOutput 1 KNum]; CResolve tkey] with
  | ((tg', _), Ok _) => map (fun n => kn_at tg' (n, In_)) [1; 3; 4; 5; 8; 9; 10] =
                        [Some (Known KNil); Some (Obliged KNum); Some (Obliged KNum); Some (Obliged KNum); Some (Obliged KNum); Some (Obliged KNum); Some (Obliged KNum)]
  | _ => False
  end.
Proof.
  do 2 eexists. split; [vm_compute; reflexivity|]. split.
  { intros t I. destruct (sample_literals t I) as (n & E). exists n. unfold get_type. rewrite E. reflexivity. }
  do 4 (split; [vm_compute; reflexivity|]). split; [constructor; [|constructor; [|constructor]]; cbn; [exact I|constructor; [exact I|constructor]]|].
  vm_compute. reflexivity.
Qed.
Example C61_literals_example : wf sample /\ (forall t, In t [TNil; TBool; TNum; TStr] -> exists n, alookup str_eqb n (df_types sample) = Some (TyBase t)).
Proof. split; [exact (proj1 sample_built_in)|exact sample_literals]. Qed.

Definition selfish := Defs ((lit "f", Keys [(TNum, IDef (df file "f" (Some "Num"%string) [] [blk "f" []]))] None) :: df_impls sample) (df_types sample).
(** An op inside the only definition of it starts with no type it could take: such a definition fails to compile with a type
    error that does not mention the recursion. *)
Theorem C61_recursive_refuted : exists g tg, start selfish (ex [blk "f" []]) KNum [] = Ok (g, tg) /\
  AstGraph.node g 4 = Some (NOp (RegistrySamples.tg "f")) /\ kn_at tg (4, In_) = Some (Inferred []) /\
  exists st, compile_history tkey_eqb (tg, []) [CResolve tkey] = (st, Err 3).
Proof. do 2 eexists. split; [vm_compute; reflexivity|]. split; [vm_compute; reflexivity|]. split; [vm_compute; reflexivity|]. eexists. vm_compute. reflexivity. Qed.
Print Assumptions C61_recursive_refuted.
