(** What ogma's own intrinsics ask for is modest. *)
From Coq Require Import String List NArith ZArith Bool Arith Lia Permutation.
From Verif Require Import Model.Base Model.Value Model.Ast Model.Registry Model.AstGraph Model.TyBuild Model.Tuple Model.Compile Model.Get Model.ArgApi Model.Ops Spec.AstGraphSpec Spec.TyBuildSpec Spec.RegistrySpec
  Spec.LocalsSpec Spec.CompileSpec Spec.ArgSpec Spec.ParamSpec Spec.HaltSpec Proofs.TyBuildBase Proofs.TyBuildNodes Proofs.CompileProofs Proofs.CompileInv Proofs.ArgProofs Proofs.CallProofs
  Proofs.ParamLocals Proofs.ParamAsks Proofs.ParamInv Proofs.HaltProg.
From Verif Require Model.TyGraph Model.Locals Spec.OpSpec Proofs.LocalsGraphProofs Proofs.AstExpandProofs.
Import ListNotations.

Section F.
Variables (g : graph) (c : comp code ArgApi.binding cparam).
Notation quiet := (quiet code g c).
Notation okb := (okb code g c).
Notation modest := (modest (var_names g) (told code g c) c).
Lemma ok_quiet : forall X (k : X -> prog) r, (forall x, r = inl x -> quiet (k x)) -> quiet (ok k r).
Proof. intros X k [x|e] H; [now apply H|constructor]. Qed.
Lemma next_quiet : forall k, (forall b, okb b -> quiet (k b)) -> quiet (PNext (ok k)).
Proof. intros k H. constructor. intros r W. apply ok_quiet. intros b ->. now apply H, W. Qed.
Lemma supplied_quiet : forall b t k, okb b -> (forall b, okb b -> quiet (k b)) -> quiet (PSupplied b t (ok k)).
Proof. intros b t k Wb H. constructor; [auto|]. intros r W. apply ok_quiet. intros b' ->. now apply H, W. Qed.
Lemma returns_quiet : forall b t k, okb b -> (forall b, okb b -> quiet (k b)) -> quiet (PReturns b t (ok k)).
Proof. intros b t k Wb H. constructor; [auto|]. intros r W. apply ok_quiet. intros b' ->. now apply H, W. Qed.
Lemma concrete_quiet : forall b k, (forall a, quiet (k a)) -> quiet (PConcrete b (ok k)).
Proof. intros b k H. constructor. intros r. apply ok_quiet. auto. Qed.
Lemma create_quiet : forall a t k, (forall v, quiet (k v)) -> quiet (PCreate a t (ok k)).
Proof. intros a t k H. constructor. intros r. apply ok_quiet. auto. Qed.
Lemma inject_quiet : forall t k, (forall v, quiet (k v)) -> quiet (inject_next "row" t k).
Proof. intros t k H. unfold inject_next. constructor. intros [n|] m; [|constructor]. constructor; [left; reflexivity|]. intros r. apply ok_quiet. auto. Qed.
Lemma arg_quiet : forall i o k, (forall a, quiet (k a)) -> quiet (arg i o k).
Proof. intros i o k H. unfold arg. apply next_quiet. intros b W. apply supplied_quiet; [auto|]. intros b1 W1. apply returns_quiet; [auto|]. intros b2 W2. apply concrete_quiet; auto. Qed.
Lemma any_arg_quiet : forall i k, (forall a, quiet (k a)) -> quiet (any_arg i k).
Proof. intros i k H. unfold any_arg. apply next_quiet. intros b W. apply supplied_quiet; [auto|]. intros b1 W1. apply concrete_quiet; auto. Qed.
Lemma args_quiet : forall n i o acc k, (forall l, quiet (k l)) -> quiet (args n i o acc k).
Proof. induction n as [|n IH]; intros; cbn [args]; [auto|]. apply arg_quiet. auto. Qed.
Lemma any_args_quiet : forall n i acc k, (forall l, quiet (k l)) -> quiet (any_args n i acc k).
Proof. induction n as [|n IH]; intros; cbn [any_args]; [auto|]. apply any_arg_quiet. auto. Qed.
Lemma arms_quiet : forall n acc k, (forall l, quiet (k l)) -> quiet (arms n acc k).
Proof. induction n as [|n IH]; intros; cbn [arms]; [auto|]. apply arg_quiet. intros. apply any_arg_quiet. auto. Qed.
Lemma appends_quiet : forall n acc cols k, (forall l m, quiet (k l m)) -> quiet (appends n acc cols k).
Proof. induction n as [|n IH]; intros; cbn [appends]; [auto|]. apply any_arg_quiet. intros. constructor. auto. Qed.
Lemma inits_quiet : forall fs acc k, (forall l, quiet (k l)) -> quiet (inits fs acc k).
Proof. induction fs as [|n IH]; intros; cbn [inits]; [auto|]. apply arg_quiet. auto. Qed.
Lemma lets_quiet : forall rep n acc vs k, (forall l m, quiet (k l m)) -> quiet (lets rep n acc vs k).
Proof. induction n as [|n IH]; intros; cbn [lets]; [auto|]. apply any_arg_quiet. intros. apply next_quiet. intros b W. apply create_quiet; auto. Qed.
Lemma renames_quiet : forall n acc k, (forall l, quiet (k l)) -> quiet (renames n acc k).
Proof.
  induction n as [|n IH]; intros acc k H; cbn [renames]; [auto|]. apply next_quiet. intros b W. apply supplied_quiet; [auto|]. intros b1 W1. apply returns_quiet; [auto|]. intros b2 W2. apply concrete_quiet.
  intros h. apply arg_quiet. auto.
Qed.
Lemma flag_type_quiet : forall types k, (forall t, quiet (k t)) -> quiet (flag_type types k).
Proof. intros types k H. constructor. intros [f|]; [|auto]. destruct (type_flag types (tg_str f)); [auto|constructor]. Qed.
Lemma flagged_quiet : forall t o k, (forall a, quiet (k a)) -> quiet (flagged_arg t o k).
Proof.
  intros t o k H. unfold flagged_arg. apply next_quiet. intros b W.
  assert (Z : forall b, okb b -> quiet (match o with Some o => PReturns b o (ok (fun b => PConcrete b (ok k))) | None => PConcrete b (ok k) end)).
  { intros b1 W1. destruct o; [apply returns_quiet; [auto|]; intros b2 W2|]; now apply concrete_quiet. }
  destruct t; [apply supplied_quiet; auto|auto].
Qed.
Lemma accessor_quiet : forall rep t a k, (forall i u, quiet (k i u)) -> quiet (accessor g rep t a k).
Proof.
  intros rep t a k H. unfold accessor. destruct (rep t) as [| | | | | |[n [vs|fs]]]; try constructor. apply ok_quiet. intros x _. destruct (field_index x fs) as [[i u]|]; [auto|constructor].
Qed.
Ltac go := repeat first
  [ assumption | apply arg_quiet; intros | apply any_arg_quiet; intros | apply args_quiet; intros | apply any_args_quiet; intros | apply arms_quiet; intros | apply appends_quiet; intros | apply inits_quiet; intros
  | apply lets_quiet; intros | apply renames_quiet; intros | apply flag_type_quiet; intros | apply flagged_quiet; intros | apply accessor_quiet; intros | apply inject_quiet; intros
  | apply next_quiet; intros | apply supplied_quiet; [assumption|intros] | apply returns_quiet; [assumption|intros] | apply concrete_quiet; intros | apply create_quiet; intros
  | match goal with |- HaltProg.quiet _ _ _ (if ?b then _ else _) => destruct b | |- HaltProg.quiet _ _ _ (match ?b with Some _ => _ | None => _ end) => destruct b | |- HaltProg.quiet _ _ _ (match ?b with inl _ => _ | inr _ => _ end) => destruct b
    | |- HaltProg.quiet _ _ _ (match ?b with KNil => _ | _ => _ end) => destruct b | |- HaltProg.quiet _ _ _ (match ?b with TNil => _ | _ => _ end) => destruct b end
  | apply ok_quiet; intros | progress cbv zeta | constructor; intros ].
Lemma op_quiet : forall rep types format inject t len o, o <> OTuple -> quiet (op_prog g rep types format inject t len o).
Proof.
  intros rep types format inject t len o H. destruct o; cbn [op_prog]; try (now destruct H);
    unfold constrained, agnostic, same, counted, unary, by_cols, tuple_op, colnames, cmp_cmd, assert_input, named_flag; go.
Qed.

(** [Tuple] adds a type, but then it is done. *)
Variables (rep : tkey -> ty) (order : Locals.lmap -> Locals.lmap) (seeds : list (str * ty)) (s : defs) (e : expr) (root : tkey) (anon : list tkey) (tg0 : tg_t) (cs0 : list AstGraph.chg).
Hypothesis HS : start s e root anon = Ok (g, tg0).
Hypothesis HI : init s e = Ok (g, cs0).
Hypothesis HO : forall m, Permutation (order m) m.
Variable hs : list Locals.lchg.
Hypothesis T : tells code g rep order seeds hs c.
Notation ready_blk := (ready_blk code g c).
Lemma all_args_modest : forall n acc k b r er, ready_blk b -> length (k_args b) = n -> k_flags b = [] ->
  (forall l b', k_args b' = [] -> k_flags b' = [] -> exec g c b' (k l) = Good r -> r_res r <> inr er) ->
  exec g c b (any_args n None acc k) = Good r -> r_res r = inr er -> Forall modest (r_asks r).
Proof.
  induction n as [|n IH]; intros acc k b r er R L F HK H E; cbn [any_args] in H.
  - destruct (k_args b) eqn:Ea; [|discriminate]. destruct (HK _ _ Ea F H E).
  - destruct (k_args b) as [|a l] eqn:Ea; [discriminate|]. unfold any_arg in H. cbn [exec] in H. rewrite Ea in H. apply obind_good in H. destruct H as (b1 & B & H). cbn [ok] in H.
    destruct R as (R1 & R2 & R3 & R4). rewrite Ea in R2. apply Forall_cons_iff in R2. destruct R2 as (Rn & R2).
    set (b0 := ABlock (k_op b) (k_in b) (k_flags b) l (k_asks b) (k_infer b) (k_adds b)) in *. assert (R0 : ready_blk b0) by (split; [exact R1|split; [exact R2|split; [exact R3|exact R4]]]).
    assert (W : okb b1) by (destruct R1 as (t & N); eapply (new_arg_okb code g rep order seeds s e root anon tg0 cs0 HS HI HO); [exact T| |exact B]; exists (k_op b), t; auto).
    cbn [exec] in H. destruct (ArgApi.supplied b1 None) as [r1 asks] eqn:SU. destruct (supplied_okb code g c _ _ _ _ W SU) as (M1 & Z). cbn [fst snd] in H.
    assert (R' : ready_blk (push b0 asks)) by (apply ready_push'; auto).
    destruct r1 as [b2|e2]; cbn [ok exec] in H; [|injection H as <-; apply R'].
    apply obind_good in H. destruct H as (r3 & C & H). destruct r3 as [ar|e3]; cbn [ok exec] in H; [|injection H as <-; apply R'].
    eapply IH; [exact R'| | |exact HK|exact H|exact E]; cbn; [now injection L|exact F].
Qed.
Lemma tuple_modest : forall types format inject t b r er, ready_blk b -> k_flags b = [] ->
  exec g c b (op_prog g rep types format inject t (length (k_args b)) OTuple) = Good r -> r_res r = inr er -> Forall modest (r_asks r).
Proof.
  intros types format inject t b r er R F H E. cbn [op_prog] in H. destruct (length (k_args b) <? 2); [injection H as <-; apply R|].
  eapply all_args_modest; [exact R|reflexivity|exact F| |exact H|exact E]. intros l b' A1 F1 H1. cbv zeta in H1. cbn [exec k_args k_flags push] in H1. rewrite A1, F1 in H1. injection H1 as <-. discriminate.
Qed.
(** No [Tuple] has flags. *)
Lemma intrinsic_modest : forall types format inject o cmd op f t r er, OpSpec.plain_tuples g -> settles c o TyGraph.In_ t -> key_impl g o t = Some cmd -> node g cmd = Some (NIntrinsic op f) ->
  run_intrinsic g c cmd t (ops_prog g rep types format inject c cmd t) = Good r -> r_res r = inr er -> Forall modest (r_asks r).
Proof.
  intros types format inject o cmd op f t r er PT ST KI N H E. pose proof (CallProofs.made_g g s e root anon tg0 HS) as M.
  destruct (cmd_parent_ok _ _ M cmd _ N I) as (o1 & t1 & k1 & No & CP & K & _ & U).
  assert (o1 = o) as -> by (apply impl_chosen in KI; destruct KI as [(k' & K' & _)|(K' & _)]; destruct (U _ _ K') as (-> & _); auto).
  pose proof (get_args_all _ _ M _ _ _ K) as GA. unfold run_intrinsic in H. rewrite CP in H. cbn [sure obind] in H. apply obind_good in H. destruct H as (fl & GF & H). apply sure_good in GF. rewrite GA in H. cbn [sure obind] in H.
  set (b := ABlock o t fl (firstn 256 (args_below g o)) [] false false) in H.
  assert (R : ready_blk b).
  { split; [eauto|]. cbn [k_args k_op k_asks b]. split; [apply Forall_forall; intros n J; rewrite <- (firstn_skipn 256 (args_below g o)); apply in_or_app; now left|]. split; [|constructor].
    intros n J. apply own_iff. exists o, t1, t, cmd. split; [auto|]. split; [auto|]. split; [auto|]. split; [auto|]. unfold at_is. now rewrite N. }
  unfold ops_prog in H. rewrite N, GA in H. destruct (op_of f) as [x|] eqn:OF; [|cbn [exec] in H; injection H as <-; apply R].
  assert (D : x = OTuple \/ x <> OTuple) by (destruct x; (now left) || (right; discriminate)). destruct D as [->|D].
  - assert (F0 : fl = []). { pose proof (PT _ _ _ _ _ K N OF) as FB. apply AstExpandProofs.keyed_in in K. destruct (get_terms_all g o cmd k1 (m_inv _ _ M) K) as (_ & FT). unfold get_flags in GF. rewrite FT, FB in GF. cbn in GF. now injection GF as <-. }
    eapply (tuple_modest types format (inject c) t b); [exact R|exact F0| |exact E]. exact H.
  - eapply (exec_modest code g rep order seeds s e root anon tg0 cs0 HS HI HO); [exact T|apply op_quiet; exact D|exact R|exact H].
Qed.
End F.
