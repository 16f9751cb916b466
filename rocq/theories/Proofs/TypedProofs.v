(** Type soundness: what it is for steps and arguments to behave. *)
From Coq Require Import String List ZArith NArith Bool Lia.
From Verif Require Import Model.Base Model.Value Model.TableCrate Model.RowPar Model.TableOps Model.Tuple Model.Exec Model.Intrinsics
  Model.Compare Model.Typed Spec.TableSpec Spec.TypeSpec Spec.CompareSpec Spec.TypingSpec Proofs.RegistryProofs Proofs.LinkProofs
  Proofs.CompareProofs.
Import ListNotations.

Lemma behaves_imp {A} (P Q : A -> Prop) r : (forall a, P a -> Q a) -> behaves P r -> behaves Q r.
Proof. destruct r; cbn; auto. Qed.

Section Sound.
Variable W : Type.
Variable U : ty -> Prop.
Hypothesis HU : universe U.
Variable Sg : nat -> ty.
Variable L : nat.
Local Notation step := (step W).
Local Notation hold := (hold W).
Local Notation node := (node W).
Local Notation is_a := (is_a U).

Definition slots : Type := nat -> Prop.
Definition within (D D' : slots) : Prop := forall s, D s -> D' s.
Definition also (D : slots) (s : nat) : slots := fun j => j = s \/ D j.

Definition env_ok (D : slots) (e : env) : Prop :=
  length e = L /\ forall s, D s -> exists v, nth_error e s = Some v /\ is_a v (Sg s).

Definition hold_ok (D : slots) (tin : ty) (h : hold) (tout : ty) : Prop :=
  forall v e w, is_a v tin -> env_ok D e -> behaves (fun x => is_a x tout) (snd (resolve h v e w)).
Definition out_ok (D : slots) (t : ty) (p : value * env) : Prop := is_a (fst p) t /\ env_ok D (snd p).
Definition step_ok (D : slots) (tin : ty) (s : step) (tout : ty) (D' : slots) : Prop :=
  forall v e w, is_a v tin -> env_ok D e -> behaves (out_ok D' tout) (snd (invoke s v e w)).
Definition steps_ok (D : slots) (tin : ty) (l : list step) (tout : ty) (D' : slots) : Prop :=
  forall v e w, is_a v tin -> env_ok D e -> behaves (out_ok D' tout) (snd (eval l v e w)).

Lemma env_within D D' e : within D D' -> env_ok D' e -> env_ok D e.
Proof. intros I [E H]. split; auto. Qed.
Lemma hold_within D D' tin h tout : within D D' -> hold_ok D tin h tout -> hold_ok D' tin h tout.
Proof. intros I H v e w Hv He. apply H; auto. eapply env_within; eauto. Qed.

Lemma env_set D e s v : s < L -> env_ok D e -> is_a v (Sg s) -> exists e', put s v e = Some e' /\ env_ok (also D s) e'.
Proof.
  intros Hs [E H] Hv. assert (Hs' : s < length e) by lia. destruct (put_at e v Hs') as (e' & P & Le & N & O). exists e'. split; auto.
  split; [congruence|]. intros j [->|Hj]; [eauto|]. destruct (Nat.eq_dec j s) as [->|n]; [eauto|]. rewrite O by auto. auto.
Qed.

Lemma behaves_bind {A B} (P : A -> Prop) (Q : B -> Prop) (m : M W A) (k : A -> M W B) w :
  behaves P (snd (m w)) -> (forall a w', P a -> behaves Q (snd (k a w'))) -> behaves Q (snd (bind m k w)).
Proof. unfold bind. destruct (m w) as [w1 [a|n|]]; cbn; auto. Qed.

Lemma steps_cons D D1 D2 a b c (s : step) l : step_ok D a s b D1 -> steps_ok D1 b l c D2 -> steps_ok D a (s :: l) c D2.
Proof.
  intros H1 H2 v e w Hv He. cbn [eval]. eapply behaves_bind; [apply H1; auto|]. intros [x e'] w' [Hx He']. apply H2; auto.
Qed.
Lemma steps_nil D t : steps_ok D t [] t D.
Proof. intros v e w Hv He. cbn. split; auto. Qed.
Lemma hold_expr D a l b D' : steps_ok D a l b D' -> hold_ok D a (HExpr l) b.
Proof.
  intros H v e w Hv He. rewrite resolve_expr. eapply behaves_bind; [apply H; auto|]. intros [x e'] w' [Hx _]. exact Hx.
Qed.
Lemma hold_var (D : slots) tin s : D s -> hold_ok D tin (HVar s) (Sg s).
Proof. intros Hs v e w _ [_ He]. destruct (He s Hs) as (x & E & H). cbn [resolve]. unfold lift, fetch. rewrite E. exact H. Qed.
Lemma hold_lit D tin v t : is_a v t -> hold_ok D tin (HLit v) t.
Proof. intros H x e w _ _. exact H. Qed.

(** *** closures *)
Record sig := Sig { sg_in : ty; sg_out : ty; sg_env : slots }.
Fixpoint act_ok (args : list sig) (vars : list (option nat)) (tout : ty) (D' : slots) (D : slots) (a : act W) : Prop :=
  match a with
  | Done v => is_a v tout /\ within D' D
  | Fail n => n <> 1
  | Crash => False
  | Resolve i v k =>
      exists g, nth_error args i = Some g /\ within (sg_env g) D /\ is_a v (sg_in g) /\
                forall x, is_a x (sg_out g) -> act_ok args vars tout D' D (k x)
  | SetVar i v k =>
      match nth_error vars i with
      | Some (Some s) => s < L /\ is_a v (Sg s) /\ act_ok args vars tout D' (also D s) k
      | Some None => act_ok args vars tout D' D k
      | None => False
      end
  | Ask f k => forall w, act_ok args vars tout D' D (k (snd (f w)))
  end.

Lemma run_act_ok (hs : list hold) args vars tout D' :
  Forall2 (fun h g => hold_ok (sg_env g) (sg_in g) h (sg_out g)) hs args ->
  forall a D e w, act_ok args vars tout D' D a -> env_ok D e ->
  behaves (out_ok D' tout) (snd (run_act (map (@resolve W) hs) vars a e w)).
Proof.
  intros F. induction a as [v|n| |i v k IH|i v k IH|f k IH]; intros D e w H He; cbn [act_ok run_act] in *.
  - destruct H as [Hv Hw]. split; auto. eapply env_within; eauto.
  - exact H.
  - exact H.
  - destruct H as (g & Eg & Ig & Hv & Hk).
    assert (exists h, nth_error hs i = Some h /\ hold_ok (sg_env g) (sg_in g) h (sg_out g)) as (h & Eh & Hh).
    { clear - F Eg. revert i Eg. induction F as [|h g0 hs args Hh F IH]; intros [|i] E; cbn in E; try discriminate.
      - injection E as ->. exists h. auto.
      - apply IH. exact E. }
    rewrite nth_error_map, Eh. cbn [option_map]. eapply behaves_bind; [apply Hh; auto; eapply env_within; eauto|].
    intros x w' Hx. eapply IH; eauto.
  - destruct (nth_error vars i) as [[s|]|]; [| |destruct H].
    + destruct H as (Hs & Hv & Hk). destruct (env_set D e s v Hs He Hv) as (e' & E & He').
      unfold bind, lift. cbn [set_data]. rewrite E. eapply IH; eauto.
    + unfold bind, lift. cbn [set_data]. eapply IH; eauto.
  - specialize (H w). destruct (f w) as [w' x]. cbn [snd] in H. eapply IH; eauto.
Qed.

Lemma op_ok (hs : list hold) args vars f tin tout D D' :
  Forall2 (fun h g => hold_ok (sg_env g) (sg_in g) h (sg_out g)) hs args ->
  (forall v, is_a v tin -> act_ok args vars tout D' D (f v)) ->
  step_ok D tin (Op hs vars f) tout D'.
Proof. intros F H v e w Hv He. rewrite invoke_op. eapply run_act_ok; eauto. Qed.

Lemma act_try {A} (r : res A) (k : A -> act W) args vars tout D' D (P : A -> Prop) :
  behaves P r -> (forall a, P a -> act_ok args vars tout D' D (k a)) -> act_ok args vars tout D' D (try r k).
Proof. destruct r; cbn; auto. Qed.

(** *** arguments *)
Definition with_row (n : node) (D : slots) : slots := match n_binder n with Some (Some s) => also D s | _ => D end.
Definition node_ok (D : slots) (n : node) : Prop :=
  U (n_in n) /\ U (n_out n) /\
  (forall h t, n_hold n = Ok (h, t) -> U t /\ hold_ok (with_row n D) (n_in n) h t) /\
  (forall s, n_binder n = Some (Some s) -> s < L /\ Sg s = TTabRow).

Lemma U_eq a b : U a -> U b -> ty_eqb a b = true -> a = b.
Proof. intros. eapply u_names; eauto. Qed.
Lemma U_base t : In t [TNil; TBool; TNum; TStr; TTab; TTabRow; TOrd] -> U t.
Proof. intro H. assert (F := u_base U HU). rewrite Forall_forall in F. auto. Qed.

Lemma supplied_ok t (n n' : node) : U t -> U (n_in n) -> supplied t n = Ok n' -> n' = n /\ n_in n = t.
Proof. unfold supplied. intros H1 H2 H. destruct (ty_eqb (n_in n) t) eqn:E; [|discriminate]. injection H as <-. split; auto. apply U_eq; auto. Qed.
Lemma returns_ok t (n n' : node) : U t -> U (n_out n) -> returns t n = Ok n' -> n' = n /\ n_out n = t.
Proof. unfold returns. intros H1 H2 H. destruct (ty_eqb (n_out n) t) eqn:E; [|discriminate]. injection H as <-. split; auto. apply U_eq; auto. Qed.
Lemma concrete_ok D (n : node) h : node_ok D n -> concrete n = Ok h -> hold_ok (with_row n D) (n_in n) h (n_out n).
Proof.
  intros (Hi & Ho & Hh & _) H. unfold concrete in H. destruct (n_hold n) as [[h' t]| |] eqn:E; try discriminate. cbn [rbind fst snd] in H.
  destruct (ty_eqb t (n_out n)) eqn:E2; [|discriminate]. injection H as <-. destruct (Hh _ _ eq_refl) as [Ut K].
  rewrite <- (U_eq t (n_out n)); auto.
Qed.
Lemma input_ok t in_ty u : U t -> U in_ty -> assert_input t in_ty = Ok u -> in_ty = t.
Proof. unfold assert_input. intros H1 H2 H. destruct (ty_eqb in_ty t) eqn:E; [|discriminate]. apply U_eq; auto. Qed.

End Sound.
