(** C40: the expression graph shows what was written. *)
From Coq Require Import String List NArith ZArith Bool Arith Lia.
From Verif Require Import Model.Base Model.Value Model.Ast Model.Registry Model.AstGraph Spec.RegistrySpec Spec.AstGraphSpec
  Proofs.RegistrySamples Proofs.AstGraphProofs Proofs.AstLookupProofs.
Import ListNotations.

(** The root shows the expression: blocks, ops and terms in order. *)
Theorem C40_written : forall s e g cs, init s e = Ok (g, cs) -> shows g 0 e.
Proof. exact (fun s e g cs H => proj1 (proj2 (init_complete s e g cs H))). Qed.
Print Assumptions C40_written.

(** Below each op are the implementations registered for it, and below a definition its expression. *)
Theorem C40_implementations : forall s e g cs, init s e = Ok (g, cs) ->
  forall o t, node g o = Some (NOp t) -> shows_op (df_impls s) g o t.
Proof. exact (fun s e g cs H => proj2 (proj2 (init_complete s e g cs H))). Qed.
Print Assumptions C40_implementations.

(** Each implementation of an op receives the arguments in order, and the flags, that were written. *)
Theorem C40_terms : forall s e g cs o c k b, init s e = Ok (g, cs) -> shows_block g o b -> In (k, c) (keyed g o) ->
  length (blk_terms b) <= 256 ->
  (exists ns, get_args g c = Ok ns /\ Forall2 (shows_term g) ns (filter (fun t => negb (is_flag_term t)) (blk_terms b))) /\
  get_flags g c = Ok (flat_map (fun t => match t with TFlag t => [t] | _ => [] end) (blk_terms b)).
Proof. exact written_terms. Qed.
Print Assumptions C40_terms.

Theorem C40_parent : forall s e g cs, init s e = Ok (g, cs) ->
  parents g 0 = [] /\ (forall n, 0 < n < length (g_nodes g) -> exists p, parents g n = [p]) /\
  forall ed, In ed (g_edges g) -> e_src ed < e_dst ed < length (g_nodes g).
Proof. exact one_parent. Qed.
Print Assumptions C40_parent.

Theorem C40_path : forall s e g cs n, init s e = Ok (g, cs) -> n < length (g_nodes g) ->
  exists p, path_from_root g n = Ok p /\ root_path g n p.
Proof. exact path_spec. Qed.
Print Assumptions C40_path.

(** The implementation picked in the graph is the one registered, unless that is a definition inside its own body. *)
Theorem C40_pick : forall s e g cs o t, init s e = Ok (g, cs) -> wf_impls (df_impls s) -> node g o = Some (NOp t) -> forall ty,
  match at_key (df_impls s) (tg_str t) (Some ty), at_key (df_impls s) (tg_str t) None with
  | Some i, any =>
      (exists c, graph_impl g o ty = Some c /\ shows_impl g c i) \/
      (exists key d, i = IDef d /\ ty_eqb key ty = true /\ recursive_use g o t key /\
         match any with Some j => exists c, graph_impl g o ty = Some c /\ shows_impl g c j | None => graph_impl g o ty = None end)
  | None, Some i => exists c, graph_impl g o ty = Some c /\ shows_impl g c i
  | None, None => graph_impl g o ty = None
  end.
Proof. exact graph_impl_spec. Qed.
Print Assumptions C40_pick.

(** [get --a { \ 5 } x --b | = $y] *)
Definition flag (s : string) : term := TFlag (tg s).
Definition word (s : string) : term := TArg (AIdent (tg s)).
Definition sample_expr := ex [blk "get" [flag "a"; sub [blk "\" [num 5]]; word "x"; flag "b"]; blk "=" [var "y"]].

Example C40_example : exists g cs ns,
  init sample sample_expr = Ok (g, cs) /\ node g 1 = Some (NOp (tg "get")) /\ children g 0 = [1; 6] /\
  graph_impl g 1 TStr = Some 10 /\ keyed g 1 = [(None, 10)] /\
  get_args g 10 = Ok ns /\ map (node g) ns = [Some (NExpr (tg "")); Some (NIdent (tg "x"))] /\
  get_flags g 10 = Ok [tg "a"; tg "b"] /\ path_from_root g 9 = Ok [0; 1; 3; 8; 9].
Proof. do 3 eexists. split; [vm_compute; reflexivity|]. vm_compute. repeat split. Qed.

(** Positions are bytes: of 257 arguments one is lost without an error. *)
Theorem C40_many_refuted : exists e g cs ns, init sample e = Ok (g, cs) /\ length (flat_map blk_terms (ex_blocks e)) = 257 /\
  graph_impl g 1 TStr = Some 259 /\ get_args g 259 = Ok ns /\ length ns = 256.
Proof.
  exists (ex [blk "get" (repeat (word "x") 257)]). do 3 eexists. split; [vm_compute; reflexivity|]. vm_compute. repeat split.
Qed.
Print Assumptions C40_many_refuted.

(** An op written as a path is not handled. *)
Theorem C40_path_op_refuted : exists e, init sample e = Panic.
Proof. exists (ex [BPrefix (OpPath [tg "a"; tg "b"] 0 false) [] None None]). vm_compute. reflexivity. Qed.
Print Assumptions C40_path_op_refuted.
