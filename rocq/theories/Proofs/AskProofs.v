(** What intrinsics ask for is so once they compile. *)
From Coq Require Import String List NArith Bool Arith Lia Permutation.
From Verif Require Import Model.Base Model.Value Model.Ast Model.Registry Model.AstGraph Model.TyBuild Model.Compile Model.Tuple Model.Get Model.ArgApi Model.Ops Spec.AstGraphSpec Spec.TyBuildSpec Spec.LocalsSpec Spec.CompileSpec Spec.ArgSpec Spec.OpSpec Spec.AskSpec
  Proofs.TyBuildBase Proofs.TyBuildNodes Proofs.CompileProofs Proofs.CompileInv Proofs.ArgProofs Proofs.CallProofs Proofs.OpsBase Proofs.OpsArgs Proofs.OpsVars Proofs.OpsProofs Proofs.OpsTop.
From Verif Require Model.TyGraph Model.Locals Proofs.LocalsGraphProofs Proofs.AstTypedProofs.
Import ListNotations.

(** ** All the answers of a program are of this type *)
Inductive ends (u : tkey) : prog -> Prop :=
| e_eval : forall x, ends u (PEval u x)
| e_fail : forall e, ends u (PFail code e)
| e_flag : forall x k, (forall f, ends u (k f)) -> ends u (PFlag x k)
| e_peek : forall k, (forall n m, ends u (k n m)) -> ends u (PPeek k)
| e_says : forall v k, ends u k -> ends u (PSays v k)
| e_anon : forall v k, ends u k -> ends u (PAnon v k)
| e_adds : forall b k, ends u k -> ends u (PAddsVars b k)
| e_added : forall k, ends u k -> ends u (PVarsAdded k)
| e_create : forall a t k, (forall r, ends u (k r)) -> ends u (PCreate a t k)
| e_inject : forall a x t k, (forall r, ends u (k r)) -> ends u (PInject a x t k)
| e_oblige : forall t k, ends u k -> ends u (POblige t k)
| e_output : forall k, (forall r, ends u (k r)) -> ends u (POutput k)
| e_next : forall k, (forall r, ends u (k r)) -> ends u (PNext k)
| e_supplied : forall b t k, (forall r, ends u (k r)) -> ends u (PSupplied b t k)
| e_returns : forall b t k, (forall r, ends u (k r)) -> ends u (PReturns b t k)
| e_decouple : forall b k, ends u k -> ends u (PDecouple b k)
| e_concrete : forall b k, (forall r, ends u (k r)) -> ends u (PConcrete b k).
Lemma ok_ends : forall u X (k : X -> prog) r, (forall x, ends u (k x)) -> ends u (ok k r).
Proof. intros u X k [x|e] H; [apply H|constructor]. Qed.
Lemma args_ends : forall u n i o acc k, (forall l, ends u (k l)) -> ends u (args n i o acc k).
Proof. induction n as [|n IH]; intros; cbn [args]; [auto|]. unfold arg. repeat (constructor; intros; apply ok_ends; intros). auto. Qed.
Lemma any_args_ends : forall u n i acc k, (forall l, ends u (k l)) -> ends u (any_args n i acc k).
Proof. induction n as [|n IH]; intros; cbn [any_args]; [auto|]. unfold any_arg. repeat (constructor; intros; apply ok_ends; intros). auto. Qed.
Lemma appends_ends : forall u n acc cols k, (forall l m, ends u (k l m)) -> ends u (appends n acc cols k).
Proof. induction n as [|n IH]; intros; cbn [appends]; [auto|]. unfold any_arg. repeat (constructor; intros; apply ok_ends; intros). constructor. auto. Qed.
Lemma lets_ends : forall u rep n acc vs k, (forall l m, ends u (k l m)) -> ends u (lets rep n acc vs k).
Proof. induction n as [|n IH]; intros; cbn [lets]; [auto|]. unfold any_arg. repeat (constructor; intros; apply ok_ends; intros). auto. Qed.
Lemma renames_ends : forall u n acc k, (forall l, ends u (k l)) -> ends u (renames n acc k).
Proof. induction n as [|n IH]; intros; cbn [renames]; [auto|]. unfold arg. repeat (constructor; intros; apply ok_ends; intros). auto. Qed.
Ltac ending := repeat first
  [ apply args_ends; intros | apply any_args_ends; intros | apply appends_ends; intros | apply lets_ends; intros | apply renames_ends; intros | apply ok_ends; intros
  | match goal with |- ends _ (if ?b then _ else _) => destruct b | |- ends _ (match ?b with Some _ => _ | None => _ end) => destruct b | |- ends _ (match ?b with inl _ => _ | inr _ => _ end) => destruct b end
  | progress cbv zeta | progress unfold arg, any_arg, inject_next, flagged_arg, flag_type, named_flag, colnames, cmp_cmd | constructor; intros ].

Section V.
Variables (g : graph) (rep : tkey -> ty) (c' : comp code ArgApi.binding cparam) (t : tkey).
Lemma used_accepts : forall n a, used code g c' n a -> accepts code c' n (ar_in a).
Proof. intros n a U. apply used_iff in U. destruct U as (_ & _ & _ & _ & U). exact U. Qed.
Lemma all_accept : forall u ns l, Forall2 (used code g c') ns l -> Forall (fun a => ar_in a = u) l -> forall n, In n ns -> accepts code c' n u.
Proof.
  intros u ns l F. induction F as [|n a ns l U F IH]; intros A m J; [destruct J|]. apply Forall_cons_iff in A. destruct A as (A1 & A2).
  destruct J as [<-|J]; [subst u; now apply (used_accepts _ a)|now apply IH].
Qed.
Lemma bound_obliged : forall ns l vs, bound g c' t rep ns l vs -> forall n, In n ns -> (exists m x, stands g c' n m /\ node g m = Some (NVar x)) \/ accepts code c' n t.
Proof.
  intros ns l vs B. induction B as [|n m a v ns l vs U I Mk KN B IH]; intros x J; [destruct J|]. destruct J as [<-|[<-|J]]; [right; rewrite <- I; now apply (used_accepts _ a)| |now apply IH].
  left. destruct Mk as (m' & x & o' & y' & S & N & _). eauto.
Qed.
Lemma make_obliged : forall n w v, makes code g c' n w v -> exists m x, stands g c' n m /\ node g m = Some (NVar x).
Proof. intros n w v (m' & x & o' & y' & S & N & _). eauto. Qed.
End V.

Section W.
Variable g : graph.
Hypothesis G : LocalsGraphProofs.good g.
Variables (rep : tkey -> ty) (types : str -> option ty) (format : str -> bool) (inject inject' : injected -> tkey -> tkey + cerr).
Notation comp := (comp code ArgApi.binding cparam).
Variables (c c' : comp) (k : nat) (t : tkey).
Hypothesis EC : at_ease c.
Hypothesis GC : grows c c'.
Variables (o : op) (ns0 : list nat) (u0 : tkey).
Notation Y0 := (Y code g c k t).
Notation Y := (Y code g c' k t).
Notation M := (must code g rep c c' k o t ns0 u0).

Lemma ends_Y : forall u p fl ns y, ends u p -> Y p fl ns y -> fst y = u.
Proof.
  intros u p fl ns y E. revert fl ns. induction E as [x|e|x q E IH|q E IH|v q E IH|v q E IH|b q E IH|q E IH|a v q E IH|a x v q E IH|v q E IH|q E IH|q E IH|b v q E IH|b v q E IH|b q E IH|b q E IH]; intros fl ns H.
  - apply Y_eval in H. destruct H as (_ & _ & ->). reflexivity.
  - now apply Y_fail in H.
  - apply -> Y_flag in H. destruct (take_flag x fl) as [[f l]|]; eauto.
  - apply -> Y_peek in H. eauto.
  - apply -> Y_says in H. eauto.
  - apply -> Y_anon in H. eauto.
  - apply -> Y_adds in H. eauto.
  - apply -> Y_added in H. eauto.
  - apply -> Y_create in H. destruct H as (r & _ & H). eauto.
  - apply -> Y_inject in H. destruct H as (r & _ & H). eauto.
  - apply -> Y_oblige in H. eauto.
  - apply -> Y_output in H. destruct H as (r & _ & H). eauto.
  - apply -> Y_next in H. destruct ns as [|n ns]; [eauto|]. destruct H as (r & _ & H). eauto.
  - apply -> Y_supplied in H. eauto.
  - apply -> Y_returns in H. destruct H as (r & _ & H). eauto.
  - apply -> Y_decouple in H. destruct H as (_ & H). eauto.
  - apply -> Y_concrete in H. destruct H as (r & _ & H). eauto.
Qed.

(** [p] is run in [c] and [p'] compiles in [c']. *)
Definition Z (p p' : prog) (fl : list tag) (ns : list nat) : Prop :=
  forall b r y, k_op b = k -> k_in b = t -> k_flags b = fl -> k_args b = ns -> incl ns ns0 -> Forall M (k_asks b) -> exec g c b p = Good r -> fst y = u0 -> Y p' fl ns y -> Forall M (r_asks r).
Lemma push_all : forall b l, Forall M (k_asks b) -> Forall M l -> Forall M (k_asks (push b l)).
Proof. intros b l A B. cbn. now apply Forall_app. Qed.
Lemma Z_eval : forall u x p' fl ns, Z (PEval u x) p' fl ns.
Proof. intros u x p' fl ns b r y _ _ _ _ _ A H _ _. cbn in H. injection H as <-. exact A. Qed.
Lemma Z_fail : forall e p' fl ns, Z (PFail code e) p' fl ns.
Proof. intros e p' fl ns b r y _ _ _ _ _ A H _ _. cbn in H. injection H as <-. exact A. Qed.
Lemma Z_never : forall p e fl ns, Z p (PFail code e) fl ns.
Proof. intros p e fl ns b r y _ _ _ _ _ _ _ _ H. now apply Y_fail in H. Qed.
Lemma Z_flag : forall x p p' fl ns, match take_flag x fl with Some (f, l) => Z (p (Some f)) (p' (Some f)) l ns | None => Z (p None) (p' None) fl ns end -> Z (PFlag x p) (PFlag x p') fl ns.
Proof.
  intros x p p' fl ns IH b r y E1 E2 E3 E4 I A H U HY. apply -> Y_flag in HY. cbn [exec] in H. rewrite E3 in H. destruct (take_flag x fl) as [[f l]|].
  - eapply IH; [| | | | | |exact H|exact U|exact HY]; auto.
  - eapply IH; [| | | | | |exact H|exact U|exact HY]; auto.
Qed.
Lemma Z_says : forall u p p' fl ns, ends u p' -> Z p p' fl ns -> Z (PSays u p) (PSays u p') fl ns.
Proof.
  intros u p p' fl ns E IH b r y E1 E2 E3 E4 I A H U HY. apply -> Y_says in HY. cbn [exec] in H. assert (V := ends_Y _ _ _ _ _ E HY).
  eapply IH; [| | | | | |exact H|exact U|exact HY]; auto. apply push_all; [auto|]. constructor; [|constructor]. cbn. split; congruence.
Qed.
Lemma Z_anon : forall u p p' fl ns, o = OTuple -> ends u p' -> Z p p' fl ns -> Z (PAnon u p) (PAnon u p') fl ns.
Proof.
  intros u p p' fl ns O E IH b r y E1 E2 E3 E4 I A H U HY. apply -> Y_anon in HY. cbn [exec] in H. assert (V := ends_Y _ _ _ _ _ E HY).
  eapply IH; [| | | | | |exact H|exact U|exact HY]; auto. apply push_all; [auto|]. constructor; [|constructor]. cbn. split; congruence.
Qed.
Lemma Z_retain : forall p p' fl ns, Z p p' fl ns -> Z (PAddsVars true p) (PAddsVars true p') fl ns.
Proof. intros p p' fl ns IH b r y E1 E2 E3 E4 I A H U HY. apply -> Y_adds in HY. cbn [exec] in H. eapply IH; [| | | | | |exact H|exact U|exact HY]; auto. Qed.
Lemma Z_adds : forall p p' fl ns, o = OLet -> Z p p' fl ns -> Z (PAddsVars false p) (PAddsVars false p') fl ns.
Proof.
  intros p p' fl ns O IH b r y E1 E2 E3 E4 I A H U HY. apply -> Y_adds in HY. cbn [exec] in H. eapply IH; [| | | | | |exact H|exact U|exact HY]; auto.
  apply push_all; [auto|]. apply Forall_forall. intros a J. apply in_map_iff in J. destruct J as (n & <- & J). apply in_rev in J. cbn in J. rewrite E4 in J. left. cbn. auto.
Qed.
Lemma Z_added : forall p p' fl ns, In o [OFold; OMap; OLet] -> Z p p' fl ns -> Z (PVarsAdded p) (PVarsAdded p') fl ns.
Proof.
  intros p p' fl ns O IH b r y E1 E2 E3 E4 I A H U HY. apply -> Y_added in HY. cbn [exec] in H. eapply IH; [| | | | | |exact H|exact U|exact HY]; auto.
  apply push_all; [auto|]. constructor; [|constructor]. cbn. auto.
Qed.
Lemma Z_oblige : forall u p p' fl ns, (forall y, Y p' fl ns y -> forall n, In n ns -> M (AskObliged n (dflt t u))) -> Z p p' fl ns -> Z (POblige u p) (POblige u p') fl ns.
Proof.
  intros u p p' fl ns O IH b r y E1 E2 E3 E4 I A H U HY. apply -> Y_oblige in HY. cbn [exec] in H. eapply IH; [| | | | | |exact H|exact U|exact HY]; auto.
  apply push_all; [auto|]. apply Forall_forall. intros a J. apply in_map_iff in J. destruct J as (n & <- & J). apply in_rev in J. rewrite E4 in J. rewrite E2. now apply (O _ HY).
Qed.
Lemma Z_output : forall p p' fl ns, (forall w w', Z (p w) (p' w') fl ns) -> Z (POutput p) (POutput p') fl ns.
Proof.
  intros p p' fl ns IH b r y E1 E2 E3 E4 I A H U HY. apply -> Y_output in HY. destruct HY as (w' & _ & HY). cbn [exec] in H.
  destruct (output_ty g c (k_op b)) as [[w|]| | |]; cbn [obind] in H; try discriminate; (eapply IH; [| | | | | |exact H|exact U|exact HY]); auto.
Qed.

(** ** Arguments *)
Definition steady (d : dem) : Prop := match d with DR f => (forall v w, f v = f w) \/ (o = ORen /\ forall v, f v = KStr \/ f v = KNum /\ v = Some KNum) | DD => In o [OFold; OMap] | _ => True end.
(** What may be asked of the argument that stands at [m]. *)
Definition of_dem (m : nat) (v : option tkey) (d : dem) (a : ask) : Prop :=
  match d with
  | DS u => a = AskInput m (dflt t u)
  | DR f => v = None /\ a = AskReturns m (f None)
  | DD => exists b, In m (children g b) /\ a = AskBreak b m
  end.
Definition all_of (m : nat) (v : option tkey) (l : list dem) (q : list ask) : Prop := Forall (fun a => exists d, In d l /\ of_dem m v d a) q.
Lemma all_more : forall m v d l q, all_of m v l q -> all_of m v (d :: l) q.
Proof. intros m v d l q H. eapply Forall_impl; [|exact H]. intros a (d' & J & D). exists d'. split; [now right|auto]. Qed.
Lemma push_push : forall b p q, push (push b p) q = push b (p ++ q).
Proof. intros [] p q. unfold push. cbn. now rewrite app_assoc. Qed.
Lemma push_nil : forall b, push b [] = b.
Proof. intros []. unfold push. cbn. now rewrite app_nil_r. Qed.
Lemma asks_exec : forall l bd b p r, b_blk bd = Some t -> exec g c b (asks l bd p) = Good r ->
  (exists q, all_of (b_node bd) (return_ty bd) l q /\ r_asks r = k_asks b ++ q) \/
  (exists a q, all_of (b_node bd) (return_ty bd) l q /\ exec g c (push b q) (p a) = Good r /\ forall h fl ns y, Y0 (h a) fl ns y -> Y0 (asks l bd h) fl ns y).
Proof.
  induction l as [|d l IH]; intros bd b p r B H; cbn [asks exec] in H.
  - destruct (concrete g c bd) as [[a|e]| | |] eqn:C; cbn [obind ok] in H; try discriminate.
    + right. exists a, []. split; [constructor|]. rewrite push_nil. split; [exact H|]. intros h fl ns y HY. cbn [asks]. apply Y_concrete. exists (inl a). auto.
    + left. exists []. split; [constructor|]. cbn in H. injection H as <-. cbn. now rewrite app_nil_r.
  - destruct d as [u|f|]; cbn [exec] in H.
    + rewrite (supplied_none _ bd B) in H. destruct (ArgApi.supplied bd (Some (dflt t u))) as [[b1|e] q1] eqn:S; cbn [fst snd ok] in H.
      * assert (S' := S). apply supplied_ok in S'. destruct S' as (Q & S1 & S2 & S3 & S4 & S5). subst q1. rewrite push_nil in H.
        assert (R : return_ty b1 = return_ty bd) by (unfold return_ty; now rewrite S2).
        destruct (IH b1 b p r ltac:(congruence) H) as [(q & A & E)|(a & q & A & E & L)]; rewrite S1, R in A.
        -- left. exists q. split; [now apply all_more|exact E].
        -- right. exists a, q. split; [now apply all_more|]. split; [exact E|]. intros h fl ns y HY. cbn [asks]. apply Y_supplied. rewrite (supplied_none _ bd B), S. cbn. now apply L.
      * left. exists q1. cbn in H. injection H as <-. split; [|reflexivity]. unfold ArgApi.supplied in S. cbn in S.
        destruct (b_in bd) eqn:BI; cbn in S; rewrite ?BI in S; repeat match type of S with context [if ?x then _ else _] => destruct x end; try discriminate; injection S as _ <-; repeat constructor;
          (exists (DS u); split; [now left|reflexivity]).
    + destruct (returns bd (f (return_ty bd))) as [[[b1|e] q1]| | |] eqn:R; cbn [obind fst snd ok] in H; try discriminate.
      * assert (R' := R). apply returns_ok in R'. destruct R' as (Q & E & V). subst q1 b1. rewrite push_nil in H.
        destruct (IH bd b p r B H) as [(q & A & X)|(a & q & A & X & L)].
        -- left. exists q. split; [now apply all_more|exact X].
        -- right. exists a, q. split; [now apply all_more|]. split; [exact X|]. intros h fl ns y HY. cbn [asks]. apply Y_returns. rewrite R. eexists. split; [reflexivity|]. cbn. now apply L.
      * left. exists q1. cbn in H. injection H as <-. split; [|reflexivity]. unfold returns, fail, say in R. unfold return_ty in *.
        destruct (b_out bd) eqn:BO; repeat match type of R with context [if ?x then _ else _] => destruct x end; try discriminate; injection R as _ <-; repeat constructor.
        all: exists (DR f); split; [now left|split; reflexivity].
    + destruct (decouple g bd) as [q1| | |] eqn:D; cbn [obind] in H; try discriminate.
      assert (Q : exists o', In (b_node bd) (children g o') /\ q1 = [AskBreak o' (b_node bd)]).
      { unfold decouple in D. destruct (Locals.arg_op g (b_node bd)) as [o'|?|] eqn:E; try discriminate. cbn in D. injection D as <-. exists o'. split; [now apply normal_parent|reflexivity]. }
      destruct Q as (o' & J & ->). destruct (IH bd _ p r B H) as [(q & A & X)|(a & q & A & X & L)].
      * left. exists ([AskBreak o' (b_node bd)] ++ q). split; [|rewrite X; cbn; now rewrite <- app_assoc].
        constructor; [exists DD; split; [now left|exists o'; auto]|now apply all_more].
      * right. exists a, ([AskBreak o' (b_node bd)] ++ q). rewrite push_push in X. split; [constructor; [exists DD; split; [now left|exists o'; auto]|now apply all_more]|].
        split; [exact X|]. intros h fl ns y HY. cbn [asks]. apply Y_decouple. split; [eauto|now apply L].
Qed.
Lemma out_same : forall n a a', used code g c n a -> used code g c' n a' -> ar_out a = ar_out a'.
Proof.
  intros n a a' U U'. apply used_iff in U, U'. destruct U as (_ & _ & _ & T & _). destruct U' as (_ & _ & _ & T' & _).
  eapply typed_fun; [|exact T']. left. destruct T as [T|T]; [now apply GC|now apply EC in T].
Qed.
Lemma Z_asks : forall l p p' fl ns, Forall steady l ->
  (forall n ms a a', ns = n :: ms -> gets g c t l n a -> gets g c' t l n a' -> ar_out a = ar_out a' -> Z (p a) (p' a') fl ms) ->
  Z (PNext (ok (fun b => asks l b p))) (PNext (ok (fun b => asks l b p'))) fl ns.
Proof.
  intros l p p' fl ns St IH b r y E1 E2 E3 E4 I A H U HY. apply -> Y_asks in HY; [|exact G]. destruct HY as (n & ms & a' & -> & Gt & HY). cbn [exec] in H. rewrite E4, E2 in H.
  destruct (new_arg g c n (Some t)) as [bd| | |] eqn:N; cbn [obind] in H; try discriminate. cbn [ok] in H. assert (N' := N). apply new_arg_ok in N'. destruct N' as (i & ou & m & KI & KO & S & EB).
  assert (In0 : In n ns0) by (apply I; now left). assert (B : b_blk bd = Some t) by (subst bd; reflexivity). assert (ST : stands g c n (b_node bd)) by (subst bd; exact S).
  assert (OK : forall q, all_of (b_node bd) (return_ty bd) l q -> Forall M q).
  { intros q Q. eapply Forall_impl; [|exact Q]. intros x (d & J & D). destruct Gt as (Us & Mt & _). assert (Md := proj1 (Forall_forall _ _) Mt _ J). assert (Sd := proj1 (Forall_forall _ _) St _ J).
    apply used_iff in Us. destruct Us as (U1 & U2 & U3 & U4 & U5). destruct d as [u|f|]; cbn in D, Md, Sd.
    - subst x. cbn. exists n. split; [auto|]. split; [auto|]. unfold accepts. rewrite <- Md. exact U5.
    - destruct D as (D & ->). cbn. exists n. split; [auto|]. split; [auto|]. destruct Sd as [Sd|(O & Sd)]; [left; rewrite (Sd None (Some (ar_out a'))), Md; exact U4|].
      destruct (Sd None) as [E|(_ & E)]; [|discriminate]. rewrite E. destruct (Sd (Some (ar_out a'))) as [E'|(E' & _)]; [left; congruence|right; split; [auto|]; split; [auto|congruence]].
    - destruct D as (b' & D & ->). cbn. right. split; [exact Sd|]. split; [exact D|]. eauto. }
  destruct (asks_exec l bd _ p r B H) as [(q & Q & E)|(a & q & Q & E & L)].
  - rewrite E. apply Forall_app. auto.
  - assert (GA : gets g c t l n a).
    { set (h := fun a : argument => PEval KNil (plain OIf [a])). assert (HH : Y0 (PNext (ok (fun b => asks l b h))) [] [n] (KNil, plain OIf [a])).
      { apply Y_next. exists bd. split; [exact N|]. cbn [ok]. apply L. apply Y_eval. auto. }
      apply -> Y_asks in HH; [|exact G]. destruct HH as (n' & ms' & a2 & X & GA & HH). injection X as <- <-. apply Y_eval in HH. destruct HH as (_ & _ & HH). injection HH as ->. exact GA. }
    eapply (IH n ms a a'); [reflexivity|exact GA|exact Gt|eapply out_same; [apply GA|apply Gt]| | | | | | |exact E|exact U|exact HY]; auto.
    + intros z J. apply I. now right.
    + apply push_all; [exact A|now apply OK].
Qed.
Lemma Z_arg : forall i q p p' fl ns, (forall n ms a a', ns = n :: ms -> used code g c' n a' -> ar_out a = q -> ar_out a' = q -> Z (p a) (p' a') fl ms) -> Z (arg i q p) (arg i q p') fl ns.
Proof.
  intros i q p p' fl ns H. change (Z (PNext (ok (fun b => asks [DS i; DR (fun _ => q)] b p))) (PNext (ok (fun b => asks [DS i; DR (fun _ => q)] b p'))) fl ns).
  apply Z_asks; [repeat constructor|]. intros n ms a a' E Ga Ga' O. destruct Ga as (U & Mt & _). destruct Ga' as (U' & Mt' & _). apply Forall_cons_iff in Mt, Mt'. destruct Mt as (_ & Mt). destruct Mt' as (_ & Mt').
  apply Forall_cons_iff in Mt, Mt'. cbn in Mt, Mt'. apply (H n); auto; symmetry; tauto.
Qed.
Lemma Z_any_arg : forall i p p' fl ns, (forall n ms a a', ns = n :: ms -> used code g c' n a' -> ar_out a = ar_out a' -> Z (p a) (p' a') fl ms) -> Z (any_arg i p) (any_arg i p') fl ns.
Proof.
  intros i p p' fl ns H. change (Z (PNext (ok (fun b => asks [DS i] b p))) (PNext (ok (fun b => asks [DS i] b p'))) fl ns).
  apply Z_asks; [repeat constructor|]. intros n ms a a' E Ga Ga' O. destruct Ga' as (U' & _). eauto.
Qed.
Lemma Z_flagged : forall u q p p' fl ns, (forall n ms a a', ns = n :: ms -> used code g c' n a' -> ar_out a = ar_out a' -> Z (p a) (p' a') fl ms) -> Z (flagged_arg u q p) (flagged_arg u q p') fl ns.
Proof.
  intros u q p p' fl ns H.
  assert (E : forall p, flagged_arg u q p = PNext (ok (fun b => asks (match u with Some u => [DS (Some (key_of u))] | None => [] end ++ match q with Some q => [DR (fun _ => q)] | None => [] end) b p))) by (intros; destruct u, q; reflexivity).
  rewrite !E. apply Z_asks; [destruct u, q; repeat constructor|]. intros n ms a a' En Ga Ga' O. destruct Ga' as (U' & _). eauto.
Qed.
Lemma Z_args : forall n i q acc acc' p p' fl ns, (forall ms l l', length l = length l' -> Z (p l) (p' l') fl ms) -> length acc = length acc' -> Z (args n i q acc p) (args n i q acc' p') fl ns.
Proof.
  induction n as [|n IH]; intros i q acc acc' p p' fl ns H L; cbn [args]; [now apply H|]. apply Z_arg. intros m ms a a' -> _ _ _. apply IH; [auto|]. rewrite !app_length. cbn. lia.
Qed.
Lemma Z_any_args : forall n i acc acc' p p' fl ns, (forall ms l l', map ar_out l = map ar_out l' -> Z (p l) (p' l') fl ms) -> map ar_out acc = map ar_out acc' -> Z (any_args n i acc p) (any_args n i acc' p') fl ns.
Proof.
  induction n as [|n IH]; intros i acc acc' p p' fl ns H L; cbn [any_args]; [now apply H|]. apply Z_any_arg. intros m ms a a' -> _ O. apply IH; [auto|]. rewrite !map_app, L. cbn. now rewrite O.
Qed.
Lemma Z_arms : forall n acc acc' p p' fl ns, (forall ms l l', Z (p l) (p' l') fl ms) -> Z (arms n acc p) (arms n acc' p') fl ns.
Proof. induction n as [|n IH]; intros acc acc' p p' fl ns H; cbn [arms]; [now apply H|]. apply Z_arg. intros. apply Z_any_arg. intros. auto. Qed.
Lemma Z_inits : forall fs acc acc' p p' fl ns, (forall ms l l', Z (p l) (p' l') fl ms) -> Z (inits fs acc p) (inits fs acc' p') fl ns.
Proof. induction fs as [|f fs IH]; intros acc acc' p p' fl ns H; cbn [inits]; [now apply H|]. apply Z_arg. intros. auto. Qed.
Lemma Z_appends : forall n acc acc' cols cols' p p' fl ns, (forall fl ms l m l' m', Z (p l m) (p' l' m') fl ms) -> Z (appends n acc cols p) (appends n acc' cols' p') fl ns.
Proof.
  induction n as [|n IH]; intros acc acc' cols cols' p p' fl ns H; cbn [appends]; [now apply H|]. apply Z_any_arg. intros. apply Z_flag. destruct (take_flag None fl) as [[f l]|]; auto.
Qed.
Lemma Z_renames : forall n acc acc' p p' fl ns, o = ORen -> (forall ms l l', Z (p l) (p' l') fl ms) -> Z (renames n acc p) (renames n acc' p') fl ns.
Proof.
  induction n as [|n IH]; intros acc acc' p p' fl ns O H; cbn [renames]; [now apply H|].
  set (f := fun r : option tkey => match r with Some KNum => KNum | _ => KStr end).
  change (Z (PNext (ok (fun b => asks [DS (Some KNil); DR f] b (fun h => arg (Some KNil) KStr (fun a => renames n (acc ++ [h; a]) p)))))
            (PNext (ok (fun b => asks [DS (Some KNil); DR f] b (fun h => arg (Some KNil) KStr (fun a => renames n (acc' ++ [h; a]) p'))))) fl ns).
  apply Z_asks.
  - constructor; [exact I|]. constructor; [|constructor]. cbn. right. split; [exact O|]. intros [[| | | | | |x]|]; cbn; auto.
  - intros m ms a a' -> _ _ _. apply Z_arg. intros. auto.
Qed.

(** ** Variables *)
Lemma Z_inject : forall p p' fl ns, In o [OFold; OFoldWhile; OMap] -> (forall v v', Z (p v) (p' v') fl ns) -> Z (inject_next "row" TTabRow p) (inject_next "row" TTabRow p') fl ns.
Proof.
  intros p p' fl ns O IH b r y E1 E2 E3 E4 I A H U HY. apply -> Y_inject_next in HY. destruct HY as (n & ms & u & s & -> & D & HY). unfold inject_next in H. cbn [exec] in H. rewrite E4 in H. cbn [head_of exec] in H.
  unfold inject_var in H. destruct (Locals.new_var (c_lg c) n (lit "row") TTabRow) as [[[u' s'|to]|]|?|] eqn:V; cbn [sure obind] in H; try discriminate; cbn [fst snd say fail ok obind] in H.
  - rewrite push_nil in H. eapply IH; [| | | | | |exact H|exact U|exact HY]; auto.
  - cbn in H. injection H as <-. cbn. apply Forall_app. split; [auto|]. constructor; [|constructor]. cbn. left. repeat split; auto. apply I. now left.
Qed.
Lemma Z_make : forall w w' p p' fl ns, o = OLet -> (w = t \/ exists n', In n' ns0 /\ typed c' n' TyGraph.Out_ w) -> (forall n ms v v', ns = n :: ms -> Z (p v) (p' v') fl ms) ->
  Z (PNext (ok (fun b => PCreate (b_node b) (rep w) (ok p)))) (PNext (ok (fun b => PCreate (b_node b) w' (ok p')))) fl ns.
Proof.
  intros w w' p p' fl ns O W IH b r y E1 E2 E3 E4 I A H U HY. apply -> Y_make in HY; [|exact G]. destruct HY as (n & ms & v' & -> & Mk & _ & HY). cbn [exec] in H. rewrite E4, E2 in H.
  destruct (new_arg g c n (Some t)) as [bd| | |] eqn:N; cbn [obind] in H; try discriminate. cbn [ok exec] in H. apply new_arg_ok in N. destruct N as (i & ou & m & KI & KO & S & ->). cbn [b_node] in H.
  assert (I' : incl ms ns0) by (intros z J; apply I; now right).
  destruct (create_var g c m (rep w)) as [[[v|e] q]| | |] eqn:C; cbn [obind fst snd ok] in H; try discriminate.
  - assert (q = []) as -> by (clear -C; unfold create_var in C; destruct (node g m) as [[]|]; try discriminate; repeat match type of C with context [sure ?x] => destruct x; cbn [sure obind] in C; try discriminate | context [match ?x with _ => _ end] => destruct x; cbn [sure obind] in C; try discriminate end; injection C as _ <-; reflexivity).
    rewrite push_nil in H. eapply (IH n ms v v'); [reflexivity| | | | | | |exact H|exact U|exact HY]; auto.
  - cbn in H. injection H as <-. cbn. apply Forall_app. split; [auto|]. unfold create_var in C. destruct (node g m) as [[| | | | | | |x|]|] eqn:Nm; try discriminate; try (injection C as _ <-; constructor; fail).
    destruct (@var_parent g G _ _ Nm) as (o' & y' & No & J & Pa). rewrite Pa in C. cbn [sure obind] in C. destruct (Locals.op_next g o') as [[b'|]|?|] eqn:E; cbn [sure obind] in C; try discriminate.
    destruct (Locals.new_var (c_lg c) b' (tg_str x) (rep w)) as [[[u' s'|to]|]|?|] eqn:V; cbn [sure obind] in C; try discriminate. injection C as _ <-. constructor; [|constructor].
    cbn. right. split; [auto|]. exists n, m, x, o', w. repeat (split; [assumption || reflexivity || (apply I; now left)|]). split; [now apply (@next_some g G _ _ _ No)|auto].
Qed.
Lemma Z_lets : forall n acc acc' vs vs' p p' fl ns, o = OLet -> incl ns ns0 -> (forall ms l m l' m', Z (p l m) (p' l' m') fl ms) -> Z (lets rep n acc vs p) (lets rep n acc' vs' p') fl ns.
Proof.
  induction n as [|n IH]; intros acc acc' vs vs' p p' fl ns O I H; cbn [lets]; [now apply H|]. apply Z_any_arg. intros m ms a a' -> Us E. apply Z_make; [auto| |].
  - right. exists m. split; [apply I; now left|]. rewrite E. apply used_iff in Us. tauto.
  - intros m' ms' v v' ->. apply IH; auto. intros z J. apply I. right. now right.
Qed.

Lemma Z_ok : forall X (p p' : X -> prog) (r r' : X + cerr) fl ns, (forall x x', Z (p x) (p' x') fl ns) -> Z (ok p r) (ok p' r') fl ns.
Proof. intros X p p' [x|e] [x'|e'] fl ns H; cbn [ok]; auto using Z_fail, Z_never. Qed.
Lemma Z_flag_type : forall p p' fl ns, (forall u fl, Z (p u) (p' u) fl ns) -> Z (flag_type types p) (flag_type types p') fl ns.
Proof.
  intros p p' fl ns H. unfold flag_type. apply Z_flag. destruct (take_flag None fl) as [[f l]|]; [|auto]. destruct (type_flag types (tg_str f)); auto using Z_fail.
Qed.
Lemma Z_named : forall x p p' fl ns, (forall u fl, Z (p u) (p' u) fl ns) -> Z (named_flag x p) (named_flag x p') fl ns.
Proof. intros x p p' fl ns H. unfold named_flag. apply Z_flag. destruct (take_flag (Some (lit x)) fl) as [[f l]|]; auto. Qed.
Lemma Z_assert : forall u p p' fl ns, Z p p' fl ns -> Z (assert_input t u p) (assert_input t u p') fl ns.
Proof. intros u p p' fl ns H. unfold assert_input. destruct (tkey_eqb t u); auto using Z_fail. Qed.
End W.


Section X.
Variable g : graph.
Hypothesis G : LocalsGraphProofs.good g.
Variables (rep : tkey -> ty) (types : str -> option ty) (format : str -> bool) (inject inject' : injected -> tkey -> tkey + cerr).
Notation comp := (comp code ArgApi.binding cparam).
Variables (c c' : comp) (k : nat) (t : tkey).
Hypothesis EC : at_ease c.
Hypothesis GC : grows c c'.
Variables (ns0 : list nat) (u0 : tkey).
Notation Z := (Z g rep c c' k t).
Ltac base := first
  [ apply Z_eval | apply Z_fail | apply Z_never | apply Z_assert | apply Z_named; intros ? ? | apply Z_flag_type; intros ? ? | apply Z_retain
  | apply (Z_arg g G rep c c' k t EC GC); intros ? ? ? ? ? ? ? ? | apply (Z_any_arg g G rep c c' k t EC GC); intros ? ? ? ? ? ? ? | apply (Z_flagged g G rep c c' k t EC GC); intros ? ? ? ? ? ? ?
  | apply (Z_args g G rep c c' k t EC GC); [intros ? ? ? ?|reflexivity] | apply (Z_any_args g G rep c c' k t EC GC); [intros ? ? ? ?|reflexivity]
  | apply (Z_arms g G rep c c' k t EC GC); intros ? ? ? | apply (Z_inits g G rep c c' k t EC GC); intros ? ? ? | apply (Z_appends g G rep c c' k t EC GC); intros ? ? ? ? ? ?
  | apply (Z_renames g G rep c c' k t EC GC); [reflexivity|intros ? ? ?]
  | apply Z_says; [ending; fail|] | apply Z_ok; intros ? ? | apply Z_output; intros ? ?
  | match goal with |- AskProofs.Z _ _ _ _ _ _ _ _ _ (if ?b then _ else _) (if ?b then _ else _) _ _ => destruct b eqn:? end
  | match goal with |- AskProofs.Z _ _ _ _ _ _ _ _ _ (if ?b then _ else _) _ _ _ => destruct b eqn:? end
  | match goal with |- AskProofs.Z _ _ _ _ _ _ _ _ _ _ (if ?b then _ else _) _ _ => destruct b eqn:? end
  | match goal with |- AskProofs.Z _ _ _ _ _ _ _ _ _ (match ?b with Some _ => _ | None => _ end) _ _ _ => destruct b eqn:? end
  | match goal with |- AskProofs.Z _ _ _ _ _ _ _ _ _ (let (_, _) := ?b in _) _ _ _ => destruct b end
  | progress cbv zeta ].
Ltac walk := repeat base.
Opaque AskProofs.Z.
Lemma args_obliged : forall o i q opts fl, forall y, Y code g c' k t (args (length ns0) i q [] (fun l => PEval q (Code o opts l [] None None))) fl ns0 y ->
  forall n, In n ns0 -> must code g rep c c' k o t ns0 u0 (AskObliged n (dflt t i)).
Proof.
  intros o i q opts fl y H n J. apply -> Y_args in H; [|exact G]. destruct H as (n1 & n2 & l & E & L & F & A & H). apply cut in E; [|exact L]. destruct E as (_ & <-).
  cbn. split; [auto|]. right. apply (all_accept g c' _ _ _ F); [|exact J]. eapply Forall_impl; [|exact A]. intros a (A1 & _). exact A1.
Qed.
Ltac obliged := apply Z_oblige; [now apply args_obliged|walk].
Lemma op_walk : forall o fl, Z o ns0 u0 (op_prog g rep types format inject t (length ns0) o) (op_prog g rep types format inject' t (length ns0) o) fl ns0.
Proof.
  intros o fl. destruct o; cbn [op_prog]; unfold constrained, agnostic, same, counted, unary, by_cols, tuple_op, colnames, cmp_cmd, plain.
  all: try (walk; fail).
  all: walk; try (obliged; fail).
  - (* OOpen *) match goal with |- Z _ _ _ (match ?v with TNil => _ | _ => _ end) _ _ _ => destruct v as [| | | | | |d] end; walk.
  - (* OAppend *) apply Z_oblige; [|walk]. intros y H n J. apply -> Y_appends in H; [|exact G]. destruct H as (n1 & n2 & l & E & L & F & A & H). apply cut in E; [|exact L]. destruct E as (_ & <-).
    cbn. split; [auto|]. right. apply (all_accept g c' _ _ _ F); [exact A|exact J].
  - (* OAppendRow *) apply Z_oblige; [|walk]. intros y H n J. apply -> Y_any_args in H; [|exact G]. destruct H as (n1 & n2 & l & E & L & F & A & H). apply cut in E; [|exact L]. destruct E as (_ & <-).
    cbn. split; [auto|]. right. apply (all_accept g c' _ _ _ F); [exact A|exact J].
  - (* OFold *)
    match goal with |- Z _ _ _ (PNext (ok (fun b1 => PDecouple b1 (PSupplied b1 (Some KNil) (ok (fun b3 => PConcrete b3 (ok ?p))))))) (PNext (ok (fun d1 => PDecouple d1 (PSupplied d1 (Some KNil) (ok (fun d3 => PConcrete d3 (ok ?q))))))) _ _ =>
      change (Z OFold ns0 u0 (PNext (ok (fun b => asks [DD; DS (Some KNil)] b p))) (PNext (ok (fun b => asks [DD; DS (Some KNil)] b q))) fl ns0) end.
    apply (Z_asks g G rep c c' k t EC GC); [constructor; [now left|repeat constructor]|]. intros n ms a a' -> _ _ E. rewrite E. apply Z_says; [ending|]. apply Z_inject; [now left|]. intros v v'. apply Z_added; [now left|]. walk.
  - (* OFoldWhile *) match goal with H : ar_out _ = ar_out _ |- _ => rewrite H end. apply Z_says; [ending|]. apply Z_inject; [cbn; tauto|]. intros v v'. walk. apply Z_inject; [cbn; tauto|]. intros w w'. walk.
  - (* OMap *)
    match goal with |- Z _ _ _ (PNext (ok (fun b1 => PDecouple b1 (PSupplied b1 (Some KNil) (ok (fun b2 => PReturns b2 KStr (ok (fun b3 => PConcrete b3 (ok ?p))))))))) (PNext (ok (fun d1 => PDecouple d1 (PSupplied d1 (Some KNil) (ok (fun d2 => PReturns d2 KStr (ok (fun d3 => PConcrete d3 (ok ?q))))))))) _ _ =>
      change (Z OMap ns0 u0 (PNext (ok (fun b => asks [DD; DS (Some KNil); DR (fun _ => KStr)] b p))) (PNext (ok (fun b => asks [DD; DS (Some KNil); DR (fun _ => KStr)] b q))) fl ns0) end.
    apply (Z_asks g G rep c c' k t EC GC); [constructor; [right; now left|repeat constructor]|]. intros n ms a a' -> _ _ E. walk; (apply Z_inject; [cbn; tauto|]; intros v v'; apply Z_added; [cbn; tauto|]; walk).
  - (* OGet *) unfold accessor. destruct (rep t) as [| | | | | |[x [vs|fs]]]; walk.
    all: match goal with |- Z _ _ _ (match ?b with Some _ => _ | None => _ end) _ _ _ => destruct b as [[i u]|] | _ => idtac end; walk.
  - (* ODot *)
    match goal with H : ar_out ?a = ar_out ?b |- _ => rewrite H; generalize dependent (ar_out b) end. intros v _.
    assert (K : forall p q fl ms, (forall a a' ms, Z ODot ns0 u0 (p a) (q a') fl ms) -> Z ODot ns0 u0 (PNext (ok (fun b => PSupplied b (Some KNil) (ok (fun b => PConcrete b (ok p)))))) (PNext (ok (fun b => PSupplied b (Some KNil) (ok (fun b => PConcrete b (ok q)))))) fl ms).
    { intros p q fl0 ms0 HQ. change (Z ODot ns0 u0 (any_arg (Some KNil) p) (any_arg (Some KNil) q) fl0 ms0). walk. apply HQ. }
    assert (KA : forall v f f' p q fl ms, (forall i u j w, Z ODot ns0 u0 (p i u) (q j w) fl ms) -> Z ODot ns0 u0 (accessor g rep v f p) (accessor g rep v f' q) fl ms).
    { intros v0 f0 f1 p q fl0 ms0 HQ. unfold accessor. destruct (rep v0) as [| | | | | |[x [vs|fs]]]; try apply Z_fail. apply Z_ok. intros x1 x2.
      destruct (field_index x1 fs) as [[i u]|]; [|apply Z_fail]. destruct (field_index x2 fs) as [[j w]|]; [apply HQ|apply Z_never]. }
    destruct v; cbv iota; try (apply K; intros; apply KA; intros; apply Z_eval).
    match goal with |- Z _ _ _ (PNext (ok (fun b1 => PSupplied b1 (Some KNil) (ok (fun b2 => PReturns b2 KStr (ok (fun b3 => PConcrete b3 (ok ?p)))))))) (PNext (ok (fun d1 => PSupplied d1 (Some KNil) (ok (fun d2 => PReturns d2 KStr (ok (fun d3 => PConcrete d3 (ok ?q)))))))) _ _ =>
      change (Z ODot ns0 u0 (arg (Some KNil) KStr p) (arg (Some KNil) KStr q) fl ms) end. walk.
  - (* OIn *) match goal with H : ar_out _ = ar_out _ |- _ => rewrite H end. walk.
  - (* OLet *) apply Z_adds; [reflexivity|]. apply Z_says; [ending|]. apply Z_oblige.
    + intros y H n J. cbn. split; [auto|]. apply -> Y_lets in H; [|exact G]. destruct H as (n1 & n2 & l & ws & -> & L & B & H). apply in_app_or in J. destruct J as [J|J].
      * destruct (bound_obliged _ _ _ _ _ _ _ B n J); auto.
      * left. split; [reflexivity|]. destruct (Nat.even _); [apply -> Y_added in H; apply -> Y_eval in H; destruct H as (_ & -> & _); destruct J|].
        apply -> Y_make in H; [|exact G]. destruct H as (m & ms & v & -> & Mk & _ & H). apply -> Y_added in H. apply -> Y_eval in H. destruct H as (_ & -> & _). destruct J as [<-|[]].
        eapply make_obliged. exact Mk.
    + apply (Z_lets g G rep c c' k t EC GC); [reflexivity|apply incl_refl|]. intros ms l m l' m'. walk; [apply Z_added; [cbn; tauto|walk]|]. apply (Z_make g G rep c c' k t); [reflexivity|auto|]. intros n ms' v v' ->. apply Z_added; [cbn; tauto|walk].
  - (* OTuple *)
    match goal with H : map ar_out ?l = map ar_out ?m |- _ => assert (E : map (fun a => rep (ar_out a)) l = map (fun a => rep (ar_out a)) m) by (rewrite <- (map_map ar_out rep l), H, map_map; reflexivity); rewrite E end.
    apply Z_anon; [reflexivity|ending|]. walk.
Qed.
Transparent AskProofs.Z.
End X.

(** ** In graphs of programs *)
Section T.
Variables (s : defs) (e : expr) (root : tkey) (anon : list tkey) (g : graph) (tg : TyGraph.tgraph tkey).
Hypothesis HS : start s e root anon = Ok (g, tg).
Notation comp := (comp code ArgApi.binding cparam).
Lemma asks_must : forall rep types format inject (c c' : comp) cmd t b key op f o r r' u x,
  node g cmd = Some (NIntrinsic op f) -> op_of f = Some o -> In (key, cmd) (keyed g b) -> at_ease c -> grows c c' ->
  run_intrinsic g c cmd t (ops_prog g rep types format inject c cmd t) = Good r ->
  run_intrinsic g c' cmd t (ops_prog g rep types format inject c' cmd t) = Good r' -> r_res r' = inl (u, x) ->
  Forall (must code g rep c c' b o t (firstn 256 (args_below g b)) u) (r_asks r).
Proof.
  intros rep types format inject c c' cmd t b key op f o r r' u x N O K EC GC H H' R'. pose proof (made_g _ _ _ _ _ _ HS) as M.
  destruct (flags_made g b) as (fl & F). destruct (flags_get _ _ _ _ _ _ HS _ _ _ _ K F) as (fT & GF & _).
  pose proof (get_args_all _ _ M _ _ _ K) as GA. destruct (cmd_parent_ok _ _ M cmd _ N I) as (b' & tb & k' & Nb & CP & K' & _ & U). destruct (U _ _ K) as (-> & ->).
  unfold run_intrinsic, ops_prog in H, H'. rewrite CP, GF, GA, N, O in H, H'. cbn [sure obind] in H, H'.
  refine (op_walk g (good_g _ _ _ _ _ _ HS) rep types format (inject c) (inject c') c c' b' t EC GC (firstn 256 (args_below g b')) u o fT (ABlock b' t fT (firstn 256 (args_below g b')) [] false false) r (u, x) eq_refl eq_refl eq_refl eq_refl (incl_refl _) _ H eq_refl _).
  - constructor.
  - exists r'. split; [exact H'|exact R'].
Qed.
Lemma output_must : forall rep types format inject (c c' : comp) cmd t b key op f o r r' u x,
  node g cmd = Some (NIntrinsic op f) -> op_of f = Some o -> In (key, cmd) (keyed g b) -> at_ease c -> grows c c' ->
  run_intrinsic g c cmd t (ops_prog g rep types format inject c cmd t) = Good r ->
  run_intrinsic g c' cmd t (ops_prog g rep types format inject c' cmd t) = Good r' -> r_res r' = inl (u, x) ->
  forall n v, In (AskOutput n v) (r_asks r) -> n = b /\ v = u.
Proof. intros. match goal with J : In _ (r_asks r) |- _ => exact (proj1 (Forall_forall _ _) (asks_must rep types format inject c c' cmd t b key op f o r r' u x ltac:(eassumption) ltac:(eassumption) ltac:(eassumption) ltac:(eassumption) ltac:(eassumption) ltac:(eassumption) ltac:(eassumption) ltac:(eassumption)) _ J) end. Qed.
End T.
