(** The variables of a compiler are those of a history of changes, and the variables of bodies are parameters. *)
From Coq Require Import String List NArith ZArith Bool Arith Lia Permutation.
From Verif Require Import Model.Base Model.Value Model.Ast Model.Registry Model.AstGraph Model.TyBuild Spec.AstGraphSpec Spec.TyBuildSpec Spec.RegistrySpec Spec.LocalsSpec
  Model.Compile Model.ArgApi.
From Verif Require Model.TyGraph Model.Locals Spec.TyGraphSpec Proofs.TyGraphProofs Proofs.LocalsGraphProofs Proofs.LocalsProofs Proofs.LocalsBuildProofs Proofs.LocalsRunProofs Proofs.LocalsSealProofs Proofs.LocalsTop Proofs.AstFlatProofs.
From Verif Require Import Spec.CompileSpec Spec.ArgSpec Spec.ParamSpec Proofs.TyBuildNodes Proofs.CompileProofs Proofs.CompileInv Proofs.CallProofs.
Import ListNotations.
Import Locals.

Section P.
Variables (P : Type) (g : graph) (rep : tkey -> ty) (order : lmap -> lmap) (seeds : list (str * ty)).
Variables (s0 : defs) (e0 : expr) (cs0 : list AstGraph.chg).
Hypothesis HI : init s0 e0 = Ok (g, cs0).
Let G : LocalsGraphProofs.good g := LocalsGraphProofs.init_good s0 e0 HI.
Hypothesis HO : forall m, Permutation (order m) m.
Notation comp := (comp P ArgApi.binding cparam).
Implicit Types c : comp.
Notation sz := (length (g_nodes g)).

Definition bodyb (b : nat) : bool := existsb (fun d => match node g d with Some (NDef _ _) => existsb (Nat.eqb b) (children g d) | _ => false end) (seq 0 sz).
Lemma bodyb_iff : forall b, bodyb b = true <-> exists d e ps, node g d = Some (NDef e ps) /\ In b (children g d).
Proof.
  intros b. unfold bodyb. rewrite existsb_exists. split.
  - intros (d & _ & H). destruct (node g d) as [[]|] eqn:N; try discriminate. apply existsb_exists in H. destruct H as (x & J & E). apply Nat.eqb_eq in E. subst x. eauto.
  - intros (d & e & ps & N & J). exists d. split; [apply in_seq; split; [lia|]; unfold node in N; assert (d < sz) by (apply nth_error_Some; congruence); lia|].
    rewrite N. apply existsb_exists. exists b. split; [auto|apply Nat.eqb_refl].
Qed.
Lemma body_lt : forall b, bodyb b = true -> 0 < b < sz.
Proof. intros b H. apply bodyb_iff in H. destruct H as (d & e & ps & N & J). apply (LocalsGraphProofs.child_lt G) in J. lia. Qed.
Lemma body_def : forall d e ps b, node g d = Some (NDef e ps) -> children g d = [b] -> bodyb b = true.
Proof. intros d e ps b N C. apply bodyb_iff. exists d, e, ps. rewrite C. split; [auto|now left]. Qed.
(** A body has one definition. *)
Lemma body_fun : forall d d' b, children g d = [b] -> In b (children g d') -> d' = d.
Proof. intros d d' b C J. apply (LocalsGraphProofs.child_unique G) with (b := b); [auto|rewrite C; now left]. Qed.
Lemma op_no_body : forall o t, node g o = Some (NOp t) -> bodyb o = false.
Proof.
  intros o t N. destruct (bodyb o) eqn:B; [|auto]. apply bodyb_iff in B. destruct B as (d & e & ps & D & J). destruct (LocalsGraphProofs.def_child G d o D J) as (t' & N'). congruence.
Qed.
Lemma written_no_body : forall n, written g n -> bodyb n = false.
Proof.
  intros n (o & t & N & J). apply filter_In in J. destruct J as (J & _). destruct (bodyb n) eqn:B; [|auto]. apply bodyb_iff in B. destruct B as (d & e & ps & D & J').
  pose proof (LocalsGraphProofs.child_unique G _ _ _ J J') as <-. congruence.
Qed.

Definition names (hs : list lchg) : list (nat * str) :=
  flat_map (fun x => match x with NewVar y _ b | NewLazy y _ b => if bodyb b then [(b, y)] else [] | _ => [] end) hs.
Lemma names_app : forall a b, names (a ++ b) = names a ++ names b.
Proof. intros. apply flat_map_app. Qed.

(** A definition is what its block calls: the block takes a type and that picks it, or there is nothing else to pick. *)
Definition called c (d : nat) : Prop :=
  exists o k, In (k, d) (keyed g o) /\
    ((exists t, settles c o TyGraph.In_ t /\ key_impl g o t = Some d) \/ forall k' d', In (k', d') (keyed g o) -> d' = d).
Lemma called_grows : forall c c' d, (forall n sd t, settles c n sd t -> settles c' n sd t) -> called c d -> called c' d.
Proof. intros c c' d S (o & k & K & [(t & T & KI)|A]); exists o, k; split; auto. left. exists t. auto. Qed.

(** What is kept of a change. *)
Definition sound c (x : lchg) : Prop :=
  match x with
  | NewVar y t b => bodyb b = true -> exists d j p n u, parameter g d b j p n /\ fst p = y /\ callsite p = true /\ t = rep u /\ settles c n TyGraph.Out_ u
  | NewLazy y to b => exists d j p, parameter g d b j p to /\ fst p = y /\ callsite p = false /\ called c d
  | Seal n => exists t, node g n = Some (NOp t)
  | SealExpr b => exists d e ps, node g d = Some (NDef e ps) /\ children g d = [b] /\ has d (c_params c) = true
  | BreakEdge o a => in_graph g x
  end.
Lemma sound_grows : forall c c' x, (forall n sd t, settles c n sd t -> settles c' n sd t) -> (forall d, has d (c_params c) = true -> has d (c_params c') = true) -> sound c x -> sound c' x.
Proof.
  intros c c' x S H. destruct x as [y t b|y to b|n|o a|b]; cbn; auto.
  - intros K B. destruct (K B) as (d & j & p & n & u & K1 & K2 & K3 & K4 & K5). exists d, j, p, n, u. auto 8.
  - intros (d & j & p & K1 & K2 & K3 & K4). exists d, j, p. split; [auto|]. split; [auto|]. split; [auto|]. eapply called_grows; eauto.
  - intros (d & e & ps & K1 & K2 & K3). exists d, e, ps. auto.
Qed.

Definition tells (hs : list lchg) c : Prop :=
  Forall (in_graph g) hs /\ locals_of order g seeds hs = Ok (c_lg c) /\ Forall (sound c) hs /\ NoDup (names hs).

Lemma tells_state : forall hs c, tells hs c -> LocalsRunProofs.state g (history seeds hs) hs (c_lg c).
Proof. intros hs c (F & L & _). eapply LocalsTop.locals_state'; eauto. Qed.
Lemma tells_size : forall hs c, tells hs c -> length (lg_nodes (c_lg c)) = sz.
Proof. intros hs c H. apply tells_state in H. exact (LocalsProofs.b_size (proj1 (LocalsRunProofs.s_settled H))). Qed.

(** What is introduced at a node is what the history says. *)
Lemma declared_iff : forall hs c n y l, tells hs c -> n < sz -> (declared c n y l <-> bound_at (history seeds hs) n y = Some l).
Proof.
  intros hs c n y l T L. pose proof (tells_state _ _ T) as S. pose proof (proj1 (LocalsRunProofs.s_settled S)) as B.
  pose proof (LocalsProofs.bidx_spec (history seeds hs) 0 n y) as H. unfold declared. destruct (LocalsProofs.bidx 0 (history seeds hs) n y) as [i|] eqn:Bi.
  - pose proof (LocalsProofs.b_bound B y L Bi) as K. unfold LocalsProofs.look in K. destruct (nth_error (lg_nodes (c_lg c)) n) as [v|] eqn:V; [|discriminate].
    destruct H as (l0 & N & BA & _). rewrite Nat.sub_0_r in N. rewrite BA. split.
    + intros (v0 & i0 & Z & Z1 & Z2). injection Z as <-. rewrite K in Z1. injection Z1 as <-. rewrite (LocalsRunProofs.s_locals S), (map_nth_error _ _ _ N) in Z2. exact Z2.
    + intros Z. injection Z as <-. exists v, i. split; [auto|]. split; [auto|]. rewrite (LocalsRunProofs.s_locals S), (map_nth_error _ _ _ N). reflexivity.
  - rewrite H. split; [|discriminate]. intros (v & i & Z & Z1 & _). assert (K : LocalsProofs.look (c_lg c) n y = Some (Local i n)) by (unfold LocalsProofs.look; now rewrite Z).
    pose proof (@LocalsProofs.b_free _ _ _ B n y _ Bi K) as W. cbn in W. lia.
Qed.

(** Changes and what they introduce. *)
Lemma in_introduced : forall hs k n y l, In (n, y, l) (introduced k hs) ->
  match l with EVar t _ => In (NewVar y t n) hs | EPtr to => In (NewLazy y to n) hs end.
Proof.
  induction hs as [|x hs IH]; intros k n y l H; [destruct H|]. destruct x; cbn [introduced] in H; try (apply IH in H; destruct l; now right).
  - destruct H as [H|H]; [injection H as <- <- <-; now left|apply IH in H; destruct l; now right].
  - destruct H as [H|H]; [injection H as <- <- <-; now left|apply IH in H; destruct l; now right].
Qed.
Lemma in_seeded : forall vs k n y l, In (n, y, l) (seeded k vs) -> n = 0 /\ exists t s, l = EVar t s.
Proof. induction vs as [|[x t] vs IH]; intros k n y l H; [destruct H|]. cbn in H. destruct H as [H|H]; [injection H as <- <- <-; eauto|eauto]. Qed.
Lemma bound_change : forall hs n y l, bound_at (history seeds hs) n y = Some l -> n <> 0 \/ (exists to, l = EPtr to) ->
  match l with EVar t _ => In (NewVar y t n) hs | EPtr to => In (NewLazy y to n) hs end.
Proof.
  intros hs n y l H N. apply LocalsSealProofs.bound_in in H. unfold history in H. apply in_app_iff in H. destruct H as [H|H]; [|now apply in_introduced in H].
  apply in_seeded in H. destruct H as (-> & t & s & ->). destruct N as [N|(to & N)]; [congruence|discriminate].
Qed.
Lemma bound_named : forall bs n y l, In (n, y, l) bs -> bound_at bs n y <> None.
Proof.
  induction bs as [|[[m z] l0] bs IH]; intros n y l H; [destruct H|]. cbn. destruct H as [H|H].
  - injection H as -> -> ->. destruct (bound_at bs n y); [discriminate|]. rewrite Nat.eqb_refl. cbn [andb]. destruct (str_eqb y y) eqn:E; [discriminate|].
    destruct (str_eqb_spec y y); congruence.
  - apply IH in H. destruct (bound_at bs n y); [discriminate|congruence].
Qed.
Lemma introduced_in : forall hs b y, In (b, y) (names hs) -> forall k, exists l, In (b, y, l) (introduced k hs).
Proof.
  induction hs as [|x hs IH]; intros b y H k; [destruct H|]. cbn [names flat_map] in H. apply in_app_iff in H. destruct H as [H|H].
  - destruct x as [z t n|z to n| | | ]; try destruct H; (destruct (bodyb n); [|destruct H]); destruct H as [H|[]]; injection H as -> ->; cbn [introduced]; eexists; now left.
  - destruct x as [z t n|z to n| | | ]; cbn [introduced]; try (apply IH; exact H); [destruct (IH _ _ H (S k)) as (l & L)|destruct (IH _ _ H k) as (l & L)]; exists l; now right.
Qed.
Lemma named_bound : forall hs b y, In (b, y) (names hs) -> bound_at (history seeds hs) b y <> None.
Proof.
  intros hs b y H. destruct (introduced_in _ _ _ H (length seeds)) as (l & L). eapply bound_named. unfold history. apply in_or_app. right. exact L.
Qed.

(** ** One change *)
Definition stable c c' : Prop := forall b y l, bodyb b = true -> declared c b y l -> declared c' b y l.
Lemma stable_refl : forall c, stable c c. Proof. intros c b y l _ H. exact H. Qed.
Lemma stable_trans : forall a b c, stable a b -> stable b c -> stable a c. Proof. intros a b c X Y n y l B H. auto. Qed.

Lemma bound_keeps : forall hs c x b y l, tells hs c -> bodyb b = true -> ~ In (b, y) (names [x]) -> bound_at (history seeds hs) b y = Some l -> bound_at (history seeds (hs ++ [x])) b y = Some l.
Proof.
  intros hs c x b y l T B F H. rewrite (LocalsRunProofs.history_snoc seeds hs x (tells_state _ _ T)).
  destruct x as [z t n|z to n| | | ]; cbn [introduced]; rewrite ?app_nil_r; auto; rewrite LocalsSealProofs.bound_at_snoc; destruct (Nat.eqb_spec n b) as [->|]; cbn [andb]; auto;
    destruct (str_eqb z y) eqn:E; auto; destruct F; cbn; rewrite B; destruct (str_eqb_spec z y) as [->|]; try discriminate; now left.
Qed.

Lemma on_node_lt : forall lg n f lg', on_node lg n f = Ok lg' -> n < length (lg_nodes lg).
Proof. intros lg n f lg' H. unfold on_node in H. destruct (nth_error (lg_nodes lg) n) eqn:E; [|discriminate]. apply nth_error_Some. congruence. Qed.
Lemma applied_in : forall hs c x b lg, tells hs c -> sound c x -> apply_chg order (c_lg c) x = Ok (b, lg) -> in_graph g x.
Proof.
  intros hs c x b lg T S H. pose proof (tells_size _ _ T) as Z. destruct x as [y t n|y to n|n|o a|n]; cbn [in_graph]; cbn [apply_chg] in H.
  - unfold add_new_var in H. destruct (insert_at _ n y _) as [l1| |] eqn:E; cbn in H; try discriminate. apply on_node_lt in E. cbn in E. lia.
  - unfold add_new_lazy in H. destruct (insert_at _ n y _) as [l1| |] eqn:E; cbn in H; try discriminate. apply on_node_lt in E. cbn in E. lia.
  - destruct (nth_error (lg_nodes (c_lg c)) n) eqn:E; [|discriminate]. rewrite <- Z. apply nth_error_Some. congruence.
  - exact S.
  - destruct (on_node (c_lg c) n set_sealed) as [l1| |] eqn:E; cbn in H; try discriminate. apply on_node_lt in E. lia.
Qed.
Lemma step_tells : forall hs c x b lg, tells hs c -> sound c x -> NoDup (names hs ++ names [x]) -> apply_chg order (c_lg c) x = Ok (b, lg) ->
  tells (hs ++ [x]) (set_lg c lg) /\ stable c (set_lg c lg).
Proof.
  intros hs c x b lg T S N H. pose proof (applied_in _ _ _ _ _ T S H) as I. pose proof T as (F & L & SF & ND).
  assert (T' : tells (hs ++ [x]) (set_lg c lg)).
  { split; [apply Forall_app; auto|]. split; [|split; [apply Forall_app; split; [exact SF|repeat constructor; exact S]|now rewrite names_app]].
    unfold locals_of in *. destruct (build g) as [l0| |]; cbn [rbind] in *; try discriminate. destruct (seed order l0 (seed_vars seeds)) as [l1| |]; cbn [rbind] in *; try discriminate.
    rewrite LocalsRunProofs.chgs_app, L. cbn [rbind]. unfold apply_chgs. cbn [rfold]. rewrite H. reflexivity. }
  split; [exact T'|]. intros bd y l B D. pose proof (proj2 (body_lt _ B)) as LT. apply (declared_iff _ _ _ _ _ T LT) in D. apply (declared_iff _ _ _ _ _ T' LT).
  apply (bound_keeps _ _ _ _ _ _ T B); [|exact D]. intros J. pose proof (named_bound hs bd y) as NB.
  (* a name that is bound already was introduced by an earlier change *)
  assert (In (bd, y) (names hs)).
  { apply bound_change in D; [|left; pose proof (body_lt _ B); lia]. unfold names. apply in_flat_map. destruct l as [t s|to]; eexists; (split; [exact D|]); cbn; rewrite B; now left. }
  clear - N J H0. induction (names hs) as [|p l IH]; [destruct H0|]. cbn in N. apply NoDup_cons_iff in N. destruct N as (N1 & N2). destruct H0 as [->|H0]; [apply N1, in_or_app; now right|auto].
Qed.

(** ** Several changes *)
Definition okc c (x : gchg) : Prop := match x with Tg _ => True | Lg x => sound c x end.
Definition gnames (cs : list gchg) : list (nat * str) := names (flat_map (fun x => match x with Lg x => [x] | Tg _ => [] end) cs).
Lemma gnames_app : forall a b, gnames (a ++ b) = gnames a ++ gnames b.
Proof. intros. unfold gnames. rewrite flat_map_app. apply names_app. Qed.
Lemma tells_tg : forall hs c c', c_lg c' = c_lg c -> (forall n sd t, settles c n sd t -> settles c' n sd t) -> (forall d, has d (c_params c) = true -> has d (c_params c') = true) -> tells hs c -> tells hs c'.
Proof.
  intros hs c c' E S H (F & L & SF & ND). split; [auto|]. split; [now rewrite E|]. split; [|auto]. eapply Forall_impl; [|exact SF]. intros x. now apply sound_grows.
Qed.
Lemma stable_lg : forall c c', c_lg c' = c_lg c -> stable c c'.
Proof. intros c c' E b y l _ H. unfold declared in *. now rewrite E. Qed.
Lemma apply_all_tells : forall cs c acc c' b hs, apply_all order c cs acc = Good (c', b) -> tells hs c -> Forall (okc c) cs -> NoDup (names hs ++ gnames cs) ->
  exists hs', tells hs' c' /\ stable c c'.
Proof.
  induction cs as [|x cs IH]; intros c acc c' b hs H T F N; cbn [apply_all] in H.
  - injection H as <- <-. exists hs. split; [auto|apply stable_refl].
  - apply Forall_cons_iff in F. destruct F as (Fx & F). destruct x as [x|x].
    + destruct (TyGraph.apply_chg tkey_eqb (fst (c_tg c)) x) as [tg [b1|e1|]] eqn:E; try discriminate.
      pose proof (TyGraphProofs.apply_chg_keeps tkey tkey_eqb tkey_eqb_eq (fst (c_tg c)) x) as (_ & K & _). rewrite E in K. cbn [fst] in K.
      assert (S : forall n sd t, settles c n sd t -> settles (set_tg c (tg, snd (c_tg c))) n sd t) by (intros n sd t Z; apply K, Z).
      eapply IH in H; [exact H| | |exact N].
      * apply (tells_tg hs c); [reflexivity|exact S|auto|exact T].
      * eapply Forall_impl; [|exact F]. intros [y|y]; [auto|]. cbn. now apply sound_grows.
    + destruct (apply_chg order (c_lg c) x) as [[b1 lg]|e1|] eqn:E; try discriminate. cbn in Fx.
      assert (N1 : names hs ++ gnames (Lg x :: cs) = (names hs ++ names [x]) ++ gnames cs).
      { change (Lg x :: cs) with ([Lg x] ++ cs). rewrite gnames_app, app_assoc. reflexivity. }
      rewrite N1 in N. assert (N2 : NoDup (names hs ++ names [x])).
      { clear - N. revert N. generalize (names hs ++ names [x]). induction l as [|p l IHl]; intros N; [constructor|]. cbn in N. apply NoDup_cons_iff in N. destruct N as (A & B). constructor; [|auto]. intros Z. apply A, in_or_app. now left. }
      destruct (step_tells _ _ _ _ _ T Fx N2 E) as (T' & ST). eapply IH in H; [| exact T'| |].
      * destruct H as (hs' & T2 & S2). exists hs'. split; [auto|eapply stable_trans; eauto].
      * eapply Forall_impl; [|exact F]. intros [y|y]; [auto|]. cbn. now apply sound_grows.
      * now rewrite names_app.
Qed.

(** ** What is found *)
Lemma opt_lt : forall hs c n x r, tells hs c -> get_opt (c_lg c) n x = Ok r -> n < sz.
Proof.
  intros hs c n x r T H. rewrite <- (tells_size _ _ T). unfold get_opt, sealed in H. cbn [sealed_loop check_level] in H.
  destruct (nth_error (lg_nodes (c_lg c)) n) eqn:E; [|discriminate]. apply nth_error_Some. congruence.
Qed.
Lemma opt_visible : forall hs c n x b l, tells hs c -> get_opt (c_lg c) n x = Ok (b, Some l) ->
  (forall m, awaits g hs n m -> finished g hs m) /\ exists d, visible g (history seeds hs) x n d l.
Proof.
  intros hs c n x b l T H. pose proof (opt_lt _ _ _ _ _ T H) as L. destruct T as (F & E & _).
  destruct (@LocalsTop.final s0 e0 g cs0 order seeds hs (c_lg c) n x HI HO F E L) as (b' & o & K1 & K2 & K3 & _). rewrite H in K1. injection K1 as <- <-. destruct (proj1 (K3 l) eq_refl) as (-> & V). split; [now apply K2|exact V].
Qed.
Lemma finds_opt : forall c n (x : tag) l, finds c n x l <-> get_opt (c_lg c) n (tg_str x) = Ok (true, Some l).
Proof.
  intros c n x l. unfold finds, get, get_opt. destruct (sealed (c_lg c) n) as [[|]| |]; cbn; try (split; discriminate).
  destruct (get_ (c_lg c) n (tg_str x)) as [[o|]| |]; cbn; split; congruence.
Qed.
(** The closest that was introduced. *)
Lemma found : forall hs c n x l, tells hs c -> finds c n x l ->
  exists b, ahead g b n /\ declared c b (tg_str x) l /\ forall m, ahead g b m -> ahead g m n -> m <> b -> forall l', ~ declared c m (tg_str x) l'.
Proof.
  intros hs c n x l T H. apply finds_opt in H. pose proof (opt_lt _ _ _ _ _ T H) as L. destruct (opt_visible _ _ _ _ _ _ T H) as (_ & d & V).
  destruct (@LocalsTop.closest s0 e0 g cs0 _ _ _ _ _ HI V) as (A & B & LE & Z). exists d. split; [auto|]. split; [apply (declared_iff _ _ _ _ _ T); [lia|auto]|].
  intros m A1 A2 NE l' D. specialize (Z m A1 A2 NE). apply (declared_iff _ _ _ _ _ T) in D; [congruence|]. apply (LocalsGraphProofs.ahead_le G) in A2. lia.
Qed.
(** What is another name is another name of an argument. *)
Lemma points : forall hs c n x b to, tells hs c -> get_opt (c_lg c) n x = Ok (b, Some (EPtr to)) -> written g to.
Proof.
  intros hs c n x b to T H. destruct (opt_visible _ _ _ _ _ _ T H) as (_ & d & V). destruct (@LocalsTop.closest s0 e0 g cs0 _ _ _ _ _ HI V) as (_ & B & _).
  apply bound_change in B; [|right; eauto]. destruct T as (_ & _ & SF & _). rewrite Forall_forall in SF. apply SF in B. cbn [sound] in B. destruct B as (df & j & p & (o & k & e & ps & K & N & C & J1 & J2) & _).
  apply nth_error_In in J2. exists o. apply filter_In in J2 as J3. destruct J3 as (J3 & _).
  apply AstExpandProofs.keyed_in in K. pose proof (LocalsGraphProofs.gd_typed G _ K) as (a & bb & Na & Nb & KK). cbn [e_src e_dst e_rel] in *. rewrite N in Nb. injection Nb as <-. destruct a; try contradiction. eauto.
Qed.
(** What is introduced in a body serves a parameter. *)
Lemma in_body : forall hs c b y l, tells hs c -> (forall t, key_of (rep t) = t) -> bodyb b = true -> declared c b y l ->
  exists d j p n, parameter g d b j p n /\ fst p = y /\ serves c p n l.
Proof.
  intros hs c b y l T HR B D. pose proof (body_lt _ B) as LT. apply (declared_iff _ _ _ _ _ T) in D; [|lia]. apply bound_change in D; [|left; lia].
  destruct T as (_ & _ & SF & _). rewrite Forall_forall in SF. destruct l as [t s|to]; apply SF in D; cbn in D.
  - destruct (D B) as (d & j & p & n & u & K1 & K2 & K3 & -> & K5). exists d, j, p, n. split; [auto|]. split; [auto|]. cbn. now rewrite HR.
  - destruct D as (d & j & p & K1 & K2 & K3 & _). exists d, j, p, to. split; [auto|]. split; [auto|]. cbn. auto.
Qed.

(** Anything in a body waits for the body. *)
Lemma waits : forall hs b, Forall (in_graph g) hs -> (exists t, node g b = Some (NExpr t)) -> forall k n, n <= k -> ahead g b n -> awaits g hs n b.
Proof.
  intros hs b F (tb & Nb). induction k as [|k IH]; intros n L A.
  - inversion A; subst; [constructor|]. apply (LocalsGraphProofs.cb_lt G) in H0. lia.
  - inversion A as [|b' m n' A' CB]; subst; [constructor|]. pose proof (LocalsGraphProofs.cb_lt G CB) as LT.
    destruct (existsb (fun x => match x with BreakEdge o a => Nat.eqb o m && Nat.eqb a n | _ => false end) hs) eqn:E.
    + apply existsb_exists in E. destruct E as (x & J & E). destruct x as [| | |o a|]; try discriminate. apply andb_prop in E. destruct E as (E1 & E2). apply Nat.eqb_eq in E1. apply Nat.eqb_eq in E2. subst o a.
      rewrite Forall_forall in F. destruct (F _ J) as ((t & Nm) & C).
      assert (FL : is_flag g n = false).
      { inversion CB as [e t' l a b' r Ne Ce|e t' a r Ne Ce|o t' a No Ca Fa]; subst; auto.
        - assert (In n (children g e)) by (rewrite Ce; apply LocalsGraphProofs.in_two). pose proof (LocalsGraphProofs.child_unique G _ _ _ C H) as ->. congruence.
        - congruence. }
      inversion A' as [|b' m' m'' A'' CB']; subst; [congruence|]. pose proof (LocalsGraphProofs.cb_lt G CB') as LT'.
      eapply aw_arg; eauto. apply IH; [lia|auto].
    + apply aw_before with (b := m); [auto| |apply IH; [lia|auto]]. intros J. assert (Z : existsb (fun x => match x with BreakEdge o a => Nat.eqb o m && Nat.eqb a n | _ => false end) hs = true).
      { apply existsb_exists. eexists. split; [exact J|]. cbn. now rewrite !Nat.eqb_refl. } congruence.
Qed.
(** Nothing in a body is found before the parameters are set. *)
Lemma found_set : forall hs c d e ps b n x l, tells hs c -> node g d = Some (NDef e ps) -> children g d = [b] -> ahead g b n -> finds c n x l -> has d (c_params c) = true.
Proof.
  intros hs c d e ps b n x l T N C A H. apply finds_opt in H. destruct (opt_visible _ _ _ _ _ _ T H) as (W & _).
  assert (Jb : In b (children g d)) by (rewrite C; now left). destruct (LocalsGraphProofs.def_child G d b N Jb) as (tb & Nb). destruct T as (F & _ & SF & _). rewrite Forall_forall in SF.
  assert (K : finished g hs b) by (apply W; eapply waits; eauto). destruct K as [(o & t & No & J & _)|[K|[K|K]]].
  - pose proof (LocalsGraphProofs.child_unique G _ _ _ Jb J) as ->. congruence.
  - apply (LocalsGraphProofs.child_lt G) in Jb. lia.
  - apply SF in K. destruct K as (t & K). congruence.
  - apply SF in K. destruct K as (d' & e' & ps' & N' & C' & K). assert (J' : In b (children g d')) by (rewrite C'; now left). pose proof (LocalsGraphProofs.child_unique G _ _ _ Jb J') as ->. exact K.
Qed.
End P.
