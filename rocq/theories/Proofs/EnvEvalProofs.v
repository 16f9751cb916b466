(** The evaluator on shared environments does what the evaluator on values does. *)
From Coq Require Import String List ZArith NArith Bool Lia Arith.
From Verif Require Import Model.Base Model.Value Model.Exec Model.EnvHeap Spec.EnvSpec Proofs.EnvHeapProofs.
Import ListNotations.
Set Implicit Arguments.

Section Eval.
Variable W : Type.
Variable home : env -> addr.

(** ** Induction *)
Section Ind.
  Variables (P : step W -> Prop) (Q : hold W -> Prop).
  Hypothesis Hop : forall args vars f, Forall Q args -> P (Op args vars f).
  Hypothesis Hdef : forall ps body, Forall (fun p => Q (snd p)) ps -> Forall P body -> P (Def ps body).
  Hypothesis Hinj : forall args local body, Forall (fun p => Q (fst (fst p))) args -> Forall P body -> P (Inject args local body).
  Hypothesis Hlit : forall v, Q (HLit v).
  Hypothesis Hvar : forall x, Q (HVar x).
  Hypothesis Hexpr : forall e, Forall P e -> Q (HExpr e).
  Fixpoint step_ind2 (s : step W) : P s :=
    match s with
    | Op args vars f =>
        Hop vars f ((fix go (l : list (hold W)) : Forall Q l :=
                       match l with [] => Forall_nil _ | a :: l => Forall_cons _ (hold_ind2 a) (go l) end) args)
    | Def ps body =>
        Hdef ((fix go (l : list (option nat * hold W)) : Forall (fun p => Q (snd p)) l :=
                     match l with [] => Forall_nil _ | a :: l => Forall_cons _ (hold_ind2 (snd a)) (go l) end) ps)
              ((fix go (l : list (step W)) : Forall P l :=
                  match l with [] => Forall_nil _ | a :: l => Forall_cons _ (step_ind2 a) (go l) end) body)
    | Inject args local body =>
        Hinj local ((fix go (l : list (hold W * option nat * option value)) : Forall (fun p => Q (fst (fst p))) l :=
                     match l with [] => Forall_nil _ | a :: l => Forall_cons _ (hold_ind2 (fst (fst a))) (go l) end) args)
              ((fix go (l : list (step W)) : Forall P l :=
                  match l with [] => Forall_nil _ | a :: l => Forall_cons _ (step_ind2 a) (go l) end) body)
    end
  with hold_ind2 (h : hold W) : Q h :=
    match h with
    | HLit v => Hlit v
    | HVar x => Hvar x
    | HExpr e => Hexpr ((fix go (l : list (step W)) : Forall P l :=
                  match l with [] => Forall_nil _ | a :: l => Forall_cons _ (step_ind2 a) (go l) end) e)
    end.
End Ind.

(** ** The heap *)
Lemma keep_refl F hp : keep F hp hp.
Proof. intros a e _ H. exact H. Qed.
Lemma keep_trans F a b c : keep F a b -> keep F b c -> keep F a c.
Proof. intros K1 K2 x e I H. auto. Qed.
Lemma keep_sub F G a b : incl F G -> keep G a b -> keep F a b.
Proof. intros I K x e H. apply K. auto. Qed.
Lemma holds_in F hp a : refs F hp -> In a F -> exists c, nth_error hp a = Some c.
Proof.
  intros [_ R] H. apply R in H. destruct (nth_error hp a) as [c|] eqn:E; eauto. apply nth_error_None in E. lia.
Qed.

Definition sim {A B} (Q : A -> B -> heap -> Prop) (E : heap -> Prop) (r : W * res A) (r' : (W * heap) * res B) : Prop :=
  match r, r' with
  | (w, Ok a), (w', hp, Ok b) => w = w' /\ Q a b hp
  | (w, Err n), (w', hp, Err n') => w = w' /\ n = n' /\ E hp
  | (w, Panic), (w', hp, Panic) => w = w'
  | _, _ => False
  end.
Lemma sim_bind {A B A' B'} (Q : A -> B -> heap -> Prop) (Q' : A' -> B' -> heap -> Prop) E m m' k k' w wh :
  sim Q E (m w) (m' wh) -> (forall a b w hp, Q a b hp -> sim Q' E (k a w) (k' b (w, hp))) ->
  sim Q' E (bind m k w) (bind m' k' wh).
Proof.
  intros H K. unfold bind, sim in *. destruct (m w) as [w1 [a|n|]], (m' wh) as [[w1' hp] [b|n'|]]; try easy.
  destruct H as [-> H]. apply K; auto.
Qed.
Lemma sim_weaken {A B} (Q Q' : A -> B -> heap -> Prop) (E E' : heap -> Prop) r r' :
  (forall a b hp, Q a b hp -> Q' a b hp) -> (forall hp, E hp -> E' hp) -> sim Q E r r' -> sim Q' E' r r'.
Proof.
  intros HQ HE. unfold sim. destruct r as [w [a|n|]], r' as [[w' hp] [b|n'|]]; auto; intros H; intuition.
Qed.
Lemma sim_owning {A B} (Q : A -> B -> heap -> Prop) (E E' : heap -> Prop) a (m : W -> W * res A) m' (w : W) wh :
  (forall hp, E hp -> E' (dec a hp)) -> sim Q E (m w) (m' wh) -> sim Q E' (m w) (owning a m' wh).
Proof.
  intros HE. unfold owning, sim. destruct (m w) as [w1 [x|n|]], (m' wh) as [[w1' hp] [b|n'|]]; cbn; auto.
  intros (-> & -> & H). auto.
Qed.

(** ** References *)
Lemma refs_inc F hp a : refs F hp -> In a F -> refs (a :: F) (inc a hp) /\ keep (a :: F) hp (inc a hp).
Proof.
  intros R I. destruct (holds_in _ R I) as [c Hc]. destruct R as [R1 R2]. split.
  - split.
    + intros b cl Hb. unfold inc in Hb. cbn [count_occ]. destruct (Nat.eq_dec a b) as [<-|N].
      * rewrite (upd_eq _ _ _ Hc) in Hb. injection Hb as <-. cbn. destruct (R1 _ _ Hc). split; auto.
      * rewrite upd_neq in Hb by auto. auto.
    + intros b [<-|Hb]; unfold inc; rewrite upd_len; auto.
  - intros b e _ (cl & Hb & D). destruct (Nat.eq_dec a b) as [<-|N].
    + eexists. split; [apply upd_eq; exact Hb|]. exact D.
    + exists cl. split; auto. unfold inc. rewrite upd_neq; auto.
Qed.
Lemma refs_dec F hp a : refs (a :: F) hp -> refs F (dec a hp) /\ keep F hp (dec a hp).
Proof.
  intros R. destruct (holds_in a R) as [c Hc]; [left; auto|]. destruct R as [R1 R2]. split.
  - split.
    + intros b cl Hb. unfold dec in Hb. destruct (Nat.eq_dec a b) as [<-|N].
      * rewrite (upd_eq _ _ _ Hc) in Hb. injection Hb as <-. cbn. destruct (R1 _ _ Hc) as [C1 C2]. split; auto.
        cbn [count_occ] in C1. destruct (Nat.eq_dec a a); [|congruence]. lia.
      * rewrite upd_neq in Hb by auto. destruct (R1 _ _ Hb) as [C1 C2]. split; auto.
        cbn [count_occ] in C1. destruct (Nat.eq_dec a b); [congruence|auto].
    + intros b Hb. unfold dec. rewrite upd_len. apply R2. right; auto.
  - intros b e _ (cl & Hb & D). destruct (Nat.eq_dec a b) as [<-|N].
    + eexists. split; [apply upd_eq; exact Hb|]. exact D.
    + exists cl. split; auto. unfold dec. rewrite upd_neq; auto.
Qed.
Lemma fresh_count F hp : refs F hp -> count_occ Nat.eq_dec F (length hp) = 0.
Proof. intros [_ R]. apply count_occ_not_In. intro H. apply R in H. lia. Qed.
Lemma refs_alloc F hp d : refs F hp ->
  refs (length hp :: F) (hp ++ [Cell d 1 0]) /\ keep F hp (hp ++ [Cell d 1 0]) /\ holds (hp ++ [Cell d 1 0]) (length hp) d.
Proof.
  intros R. assert (Fc := fresh_count R). destruct R as [R1 R2]. split; [|split].
  - split.
    + intros b cl Hb. cbn [count_occ]. destruct (Nat.lt_ge_cases b (length hp)) as [L|L].
      * rewrite nth_error_app1 in Hb by auto. destruct (Nat.eq_dec (length hp) b); [lia|auto].
      * rewrite nth_error_app2 in Hb by auto. destruct (b - length hp) as [|k] eqn:Ek; cbn in Hb; [|destruct k; discriminate].
        injection Hb as <-. assert (b = length hp) as -> by lia. destruct (Nat.eq_dec (length hp) (length hp)); [|congruence].
        rewrite Fc. auto.
    + intros b [<-|Hb]; rewrite app_length; cbn; [lia|]. apply R2 in Hb. lia.
  - intros b e Hb (cl & Hc & D). exists cl. split; auto. rewrite nth_error_app1; auto.
  - eexists. split; [rewrite nth_error_app2, Nat.sub_diag by auto; reflexivity|]. reflexivity.
Qed.

Lemma set_sim x v a F hp e w : refs (a :: F) hp -> holds hp a e ->
  sim (fun e' a' hp' => refs (a' :: F) hp' /\ holds hp' a' e' /\ keep F hp hp') (fun _ => False)
    (lift (set_data x v e) w) (h_set x v a (w, hp)).
Proof.
  intros R (c & Hc & D). destruct x as [i|]; cbn [h_set].
  2:{ cbn. split; auto. split; auto. split; [exists c; auto|apply keep_refl]. }
  unfold bind, h_make_mut, on_heap. cbn [fst snd]. unfold cell_at. rewrite Hc.
  destruct (proj1 R _ _ Hc) as [C1 C2].
  assert (U : uniq c = false) by (unfold uniq; rewrite C2; reflexivity). rewrite U. cbn [negb alloc].
  assert (R' : refs (length hp :: F) (dec a (hp ++ [Cell (c_data c) 1 0])) /\
               keep F hp (dec a (hp ++ [Cell (c_data c) 1 0]))).
  { destruct (refs_alloc (c_data c) R) as (R1 & K1 & _).
    assert (R2 : refs (a :: length hp :: F) (hp ++ [Cell (c_data c) 1 0])).
    { destruct R1 as [Q1 Q2]. split.
      - intros b cl Hb. destruct (Q1 b cl Hb) as [E1 E2]. split; auto. rewrite E1. cbn [count_occ].
        destruct (Nat.eq_dec (length hp) b), (Nat.eq_dec a b); auto.
      - intros b Hb. apply Q2. cbn in *. tauto. }
    destruct (refs_dec R2) as [R3 K3]. split; auto. eapply keep_trans; [eapply keep_sub; [|exact K1]; apply incl_tl, incl_refl|].
    eapply keep_sub; [|exact K3]. apply incl_tl, incl_refl. }
  destruct R' as [R3 K3].
  assert (La : a < length hp) by (apply nth_error_Some; rewrite Hc; discriminate).
  assert (New : nth_error (dec a (hp ++ [Cell (c_data c) 1 0])) (length hp) = Some (Cell (c_data c) 1 0)).
  { unfold dec. rewrite upd_neq by lia. rewrite nth_error_app2, Nat.sub_diag by auto. reflexivity. }
  rewrite New. cbn [get_mut c_strong c_weak Nat.eqb andb c_data]. cbn [fst snd]. rewrite New. cbn [c_data].
  unfold set_data, lift. rewrite D. destruct (put i v e) as [e'|]; cbn; auto.
  split; auto. rewrite D in *. set (hp1 := dec a (hp ++ [Cell e 1 0])) in *.
  split; [|split].
  - destruct R3 as [Q1 Q2]. split.
    + intros b cl Hb. unfold write in Hb. destruct (Nat.eq_dec (length hp) b) as [<-|N].
      * rewrite (upd_eq _ _ _ New) in Hb. injection Hb as <-. destruct (Q1 _ _ New). auto.
      * rewrite upd_neq in Hb by auto. auto.
    + intros b Hb. unfold write. rewrite upd_len. auto.
  - eexists. split; [unfold write; apply upd_eq; exact New|]. reflexivity.
  - intros b e2 Hb H. destruct (K3 b e2 Hb H) as (cl & Hcl & Dcl). exists cl. split; auto. unfold write.
    rewrite upd_neq; auto. intros <-. assert (Lb := proj2 R (length hp) (or_intror Hb)). lia.
Qed.

(** ** Code *)
Local Notation homed := (homed home).
Lemma homed_keep ls F hp hp' : keep F hp hp' -> homed ls F hp -> homed ls F hp'.
Proof. intros K H l Hl. destruct (H l Hl). auto. Qed.
Lemma homed_more ls F G hp : incl F G -> homed ls F hp -> homed ls G hp.
Proof. intros K H l Hl. destruct (H l Hl). auto. Qed.
Lemma homed_sub ls ls' F hp : incl ls ls' -> homed ls' F hp -> homed ls F hp.
Proof. intros K H l Hl. auto. Qed.

(** a step takes over the reference [a] and gives another; the rest is left as it was *)
Definition moved (F : list addr) (hp : heap) : (value * env) -> (value * addr) -> heap -> Prop :=
  fun p q hp' => fst p = fst q /\ refs (snd q :: F) hp' /\ holds hp' (snd q) (snd p) /\ keep F hp hp'.
Definition left_alone (F : list addr) (hp hp' : heap) : Prop := refs F hp' /\ keep F hp hp'.

Definition step_ok (s : step W) : Prop := forall v a F hp e w, refs (a :: F) hp -> holds hp a e -> homed (homes s) F hp ->
  sim (moved F hp) (left_alone F hp) (invoke s v e w) (h_invoke home s v a (w, hp)).
Definition hold_ok (h : hold W) : Prop := forall v a F hp e w, refs (a :: F) hp -> holds hp a e -> homed (homes_hold h) F hp ->
  sim (fun x y hp' => x = y /\ left_alone (a :: F) hp hp') (left_alone (a :: F) hp) (resolve h v e w) (h_resolve home h v a (w, hp)).
Definition code_ok (c : list (step W)) : Prop := forall v a F hp e w, refs (a :: F) hp -> holds hp a e -> homed (flat_map (@homes W) c) F hp ->
  sim (moved F hp) (left_alone F hp) (eval c v e w) (h_eval home c v a (w, hp)).

Lemma eval_of_steps c : Forall step_ok c -> code_ok c.
Proof.
  induction 1 as [|s c Hs _ IH]; intros v a F hp e w R H Hm; cbn [eval h_eval].
  - cbn. split; auto. split; auto. cbn. split; auto. split; auto. apply keep_refl.
  - cbn [flat_map] in Hm. eapply sim_bind.
    + apply Hs; auto. eapply homed_sub; [|exact Hm]. apply incl_appl, incl_refl.
    + intros [x e1] [y a1] w1 hp1 (E & R1 & H1 & K1). cbn [fst snd] in *. subst y.
      eapply sim_weaken; [| |apply IH; eauto].
      * intros p q hp2 (E & R2 & H2 & K2). split; auto. split; auto. split; auto. eapply keep_trans; eauto.
      * intros hp2 (R2 & K2). split; auto. eapply keep_trans; eauto.
      * eapply homed_keep; [exact K1|]. eapply homed_sub; [|exact Hm]. apply incl_appr, incl_refl.
Qed.

Lemma left_refl F hp : refs F hp -> left_alone F hp hp.
Proof. intro R. split; auto. apply keep_refl. Qed.
Lemma left_dec a F hp hp' : left_alone (a :: F) hp hp' -> left_alone F hp (dec a hp').
Proof.
  intros [R K]. destruct (refs_dec R) as [R1 K1]. split; auto. eapply keep_trans; [|exact K1].
  eapply keep_sub; [|exact K]. apply incl_tl, incl_refl.
Qed.

Lemma op_ok args vars f : Forall hold_ok args -> step_ok (Op args vars f).
Proof.
  intros Ha v a F hp e w R H Hm. cbn [invoke h_invoke].
  change (homed (flat_map (@homes_hold W) args) F hp) in Hm.
  generalize (f v). intro act. clear v f.
  revert a hp e w R H Hm. induction act as [v|n| |i input k IH|i v k IH|f k IH]; intros a hp e w R H Hm; cbn [run_act h_run_act].
  - cbn. split; auto. split; auto. cbn. split; auto. split; auto. apply keep_refl.
  - cbn. split; auto. split; auto. destruct (refs_dec R). split; auto.
  - reflexivity.
  - rewrite !nth_error_map. destruct (nth_error args i) as [h|] eqn:Ei; cbn [option_map]; [|reflexivity].
    assert (In h args) as Hin by (eapply nth_error_In; eauto).
    eapply sim_bind.
    + apply sim_owning with (E := left_alone (a :: F) hp); [apply left_dec|].
      rewrite Forall_forall in Ha. apply Ha; auto. eapply homed_sub; [|exact Hm].
      intros l Hl. apply in_flat_map. eauto.
    + intros x y w1 hp1 (-> & R1 & K1). eapply sim_weaken; [| |apply IH; eauto].
      * intros p q hp2 (E & R2 & H2 & K2). split; auto. split; auto. split; auto.
        eapply keep_trans; [eapply keep_sub; [|exact K1]; apply incl_tl, incl_refl|auto].
      * intros hp2 (R2 & K2). split; auto. eapply keep_trans; [eapply keep_sub; [|exact K1]; apply incl_tl, incl_refl|auto].
      * apply K1; auto. left; auto.
      * eapply homed_keep; [|exact Hm]. eapply keep_sub; [|exact K1]. apply incl_tl, incl_refl.
  - destruct (nth_error vars i) as [x|]; [|reflexivity].
    eapply sim_bind.
    + eapply sim_weaken; [intros ? ? ? X; exact X| |apply set_sim; eauto]. easy.
    + intros e1 a1 w1 hp1 (R1 & H1 & K1). eapply sim_weaken; [| |apply IH; eauto].
      * intros p q hp2 (E & R2 & H2 & K2). split; auto. split; auto. split; auto. eapply keep_trans; eauto.
      * intros hp2 (R2 & K2). split; auto. eapply keep_trans; eauto.
      * eapply homed_keep; eauto.
  - cbn [fst snd]. destruct (f w) as [w1 v]. apply IH; auto.
Qed.

Lemma expr_ok e : Forall step_ok e -> hold_ok (HExpr e).
Proof.
  intros He v a F hp en w R H Hm.
  change (resolve (HExpr e) v en w) with (bind (eval e v en) (fun p => ret (fst p)) w).
  change (h_resolve home (HExpr e) v a (w, hp)) with
    (bind (h_clone (W:=W) a) (fun b => bind (h_eval home e v b) (fun p => bind (h_drop (W:=W) (snd p)) (fun _ => ret (fst p)))) (w, hp)).
  unfold bind at 2. unfold h_clone, on_heap. cbn [fst snd].
  destruct (@refs_inc (a :: F) hp a R (or_introl eq_refl)) as [R1 K1].
  eapply sim_bind.
  - eapply sim_weaken; [intros ? ? ? X; exact X| |apply (eval_of_steps He) with (F := a :: F); eauto].
    + intros hp2 [R2 K2]. split; auto. eapply keep_trans; [|exact K2]. eapply keep_sub; [|exact K1]. apply incl_tl, incl_refl.
    + apply K1; auto. left; auto.
    + eapply homed_keep; [|eapply homed_more; [|exact Hm]; apply incl_tl, incl_refl].
      eapply keep_sub; [|exact K1]. apply incl_tl, incl_refl.
  - intros [x e1] [y a1] w1 hp1 (E & R2 & H2 & K2). cbn [fst snd] in *. subst y. cbn. split; auto. split; auto.
    destruct (refs_dec R2) as [R3 K3]. split; auto. eapply keep_trans; [|exact K3]. eapply keep_trans; [|exact K2].
    eapply keep_sub; [|exact K1]. apply incl_tl, incl_refl.
Qed.

Lemma params_ok ps : Forall (fun p : option nat * hold W => hold_ok (snd p)) ps ->
  forall v a F hp e w, refs (a :: F) hp -> holds hp a e -> homed (flat_map (fun p => homes_hold (snd p)) ps) F hp ->
  sim (fun e' a' hp' => refs (a' :: F) hp' /\ holds hp' a' e' /\ keep F hp hp') (left_alone F hp)
    (bind_params (fun e => e) (map (fun p => (fst p, resolve (snd p))) ps) v e w)
    (h_params (map (fun p => (fst p, h_resolve home (snd p))) ps) v a (w, hp)).
Proof.
  induction 1 as [|[x h] ps Hh _ IH]; intros v a F hp e w R H Hm; cbn [map bind_params h_params fst snd].
  - cbn. split; auto. split; auto. split; auto. apply keep_refl.
  - cbn [flat_map snd] in Hm. eapply sim_bind.
    + apply sim_owning with (E := left_alone (a :: F) hp); [apply left_dec|]. apply Hh; auto.
      eapply homed_sub; [|exact Hm]. apply incl_appl, incl_refl.
    + intros u y w1 hp1 (-> & R1 & K1).
      assert (H1 : holds hp1 a e) by (apply K1; auto; left; auto).
      assert (K1' : keep F hp hp1) by (eapply keep_sub; [|exact K1]; apply incl_tl, incl_refl).
      eapply sim_bind.
      * eapply sim_weaken; [intros ? ? ? X; exact X| |apply set_sim; eauto]. easy.
      * intros e2 a2 w2 hp2 (R2 & H2 & K2). assert (K := keep_trans K1' K2).
        eapply sim_weaken; [| |apply IH; eauto].
        -- intros e3 a3 hp3 (R3 & H3 & K3). split; auto. split; auto. eapply keep_trans; eauto.
        -- intros hp3 (R3 & K3). split; auto. eapply keep_trans; eauto.
        -- eapply homed_keep; [exact K|]. eapply homed_sub; [|exact Hm]. apply incl_appr, incl_refl.
Qed.

Lemma mapped_ok (args : list (hold W * option nat * option value)) : Forall (fun p => hold_ok (fst (fst p))) args ->
  forall v a b F hp e l w, refs (b :: a :: F) hp -> holds hp a e -> holds hp b l ->
  homed (flat_map (fun p => homes_hold (fst (fst p))) args) F hp ->
  sim (fun l' b' hp' => refs (b' :: a :: F) hp' /\ holds hp' b' l' /\ keep (a :: F) hp hp') (left_alone (a :: F) hp)
    (bind_params (fun _ => e) (map (fun p => let '(h, x, fixed) := p in
       (x, fun i e => resolve h (match fixed with Some v => v | None => i end) e)) args) v l w)
    (h_mapped a (map (fun p => let '(h, x, fixed) := p in
       (x, fun i a => h_resolve home h (match fixed with Some v => v | None => i end) a)) args) v b (w, hp)).
Proof.
  induction 1 as [|[[h x] fixed] args Hh _ IH]; intros v a b F hp e l w R Ha Hb Hm; cbn [map bind_params h_mapped fst snd].
  - cbn. split; auto. split; auto. split; auto. apply keep_refl.
  - cbn [flat_map fst] in Hm. eapply sim_bind.
    + apply sim_owning with (E := left_alone (b :: a :: F) hp); [apply left_dec|].
      assert (R' : refs (a :: b :: F) hp).
      { destruct R as [Q1 Q2]. split.
        - intros z cl Hz. destruct (Q1 z cl Hz) as [E1 E2]. split; auto. rewrite E1. cbn [count_occ].
          destruct (Nat.eq_dec b z), (Nat.eq_dec a z); auto.
        - intros z Hz. apply Q2. cbn in *. tauto. }
      assert (X := fun i => Hh i a (b :: F) hp e w R' Ha).
      eapply sim_weaken; [| |apply X].
      * intros p q hp2 (E & R2 & K2).
        instantiate (1 := fun p q hp2 => p = q /\ left_alone (b :: a :: F) hp hp2). split; auto. split.
        -- destruct R2 as [Q1 Q2]. split.
           ++ intros z cl Hz. destruct (Q1 z cl Hz) as [E1 E2]. split; auto. rewrite E1. cbn [count_occ].
              destruct (Nat.eq_dec b z), (Nat.eq_dec a z); auto.
           ++ intros z Hz. apply Q2. cbn in *. tauto.
        -- eapply keep_sub; [|exact K2]. intros z Hz. cbn in *. tauto.
      * intros hp2 (R2 & K2). split.
        -- destruct R2 as [Q1 Q2]. split.
           ++ intros z cl Hz. destruct (Q1 z cl Hz) as [E1 E2]. split; auto. rewrite E1. cbn [count_occ].
              destruct (Nat.eq_dec b z), (Nat.eq_dec a z); auto.
           ++ intros z Hz. apply Q2. cbn in *. tauto.
        -- eapply keep_sub; [|exact K2]. intros z Hz. cbn in *. tauto.
      * eapply homed_more; [|eapply homed_sub; [|exact Hm]; apply incl_appl, incl_refl]. apply incl_tl, incl_refl.
    + intros u y w1 hp1 (-> & R1 & K1).
      assert (Hb1 : holds hp1 b l) by (apply K1; auto; left; auto).
      assert (K1' : keep (a :: F) hp hp1) by (eapply keep_sub; [|exact K1]; apply incl_tl, incl_refl).
      eapply sim_bind.
      * eapply sim_weaken; [intros ? ? ? X; exact X| |apply set_sim; eauto]. easy.
      * intros l2 b2 w2 hp2 (R2 & H2 & K2). assert (K := keep_trans K1' K2).
        eapply sim_weaken; [| |apply IH; eauto].
        -- intros l3 b3 hp3 (R3 & H3 & K3). split; auto. split; auto. eapply keep_trans; eauto.
        -- intros hp3 (R3 & K3). split; auto. eapply keep_trans; eauto.
        -- apply K; auto. left; auto.
        -- eapply homed_keep; [eapply keep_sub; [|exact K]; apply incl_tl, incl_refl|].
           eapply homed_sub; [|exact Hm]. apply incl_appr, incl_refl.
Qed.

Lemma def_ok ps body : Forall (fun p : option nat * hold W => hold_ok (snd p)) ps -> Forall step_ok body -> step_ok (Def ps body).
Proof.
  intros Hp Hb v a F hp e w R H Hm.
  change (invoke (Def ps body) v e w) with
    (bind (bind_params (fun e => e) (map (fun p => (fst p, resolve (snd p))) ps) v e) (fun e => eval body v e) w).
  change (h_invoke home (Def ps body) v a (w, hp)) with
    (bind (h_params (map (fun p => (fst p, h_resolve home (snd p))) ps) v a) (fun a => h_eval home body v a) (w, hp)).
  change (homed (flat_map (fun p => homes_hold (snd p)) ps ++ flat_map (@homes W) body) F hp) in Hm.
  eapply sim_bind.
  - apply params_ok; eauto. eapply homed_sub; [|exact Hm]. apply incl_appl, incl_refl.
  - intros e1 a1 w1 hp1 (R1 & H1 & K1). eapply sim_weaken; [| |apply (eval_of_steps Hb); eauto].
    + intros p q hp2 (E & R2 & H2 & K2). split; auto. split; auto. split; auto. eapply keep_trans; eauto.
    + intros hp2 (R2 & K2). split; auto. eapply keep_trans; eauto.
    + eapply homed_keep; [exact K1|]. eapply homed_sub; [|exact Hm]. apply incl_appr, incl_refl.
Qed.

Lemma inject_ok args local body : Forall (fun p : hold W * option nat * option value => hold_ok (fst (fst p))) args ->
  Forall step_ok body -> step_ok (Inject args local body).
Proof.
  intros Hp Hb v a F hp e w R H Hm.
  change (invoke (Inject args local body) v e w) with
    (bind (bind_params (fun _ => e) (map (fun p => let '(h, x, fixed) := p in
       (x, fun i e => resolve h (match fixed with Some v => v | None => i end) e)) args) v local)
     (fun l => bind (eval body v l) (fun p => ret (fst p, e))) w).
  change (h_invoke home (Inject args local body) v a (w, hp)) with
    (bind (h_clone (W:=W) (home local)) (fun b =>
     bind (owning a (h_mapped a (map (fun p => let '(h, x, fixed) := p in
       (x, fun i a => h_resolve home h (match fixed with Some v => v | None => i end) a)) args) v b)) (fun b =>
     bind (owning a (h_eval home body v b)) (fun p =>
     bind (h_drop (W:=W) (snd p)) (fun _ => ret (fst p, a))))) (w, hp)).
  change (homed (local :: flat_map (fun p => homes_hold (fst (fst p))) args ++ flat_map (@homes W) body) F hp) in Hm.
  destruct (Hm local (or_introl eq_refl)) as [Hl1 Hl2].
  match goal with |- sim _ _ _ (bind (h_clone _) ?k (w, hp)) =>
    change (bind (h_clone (W:=W) (home local)) k (w, hp)) with (k (home local) (w, inc (home local) hp)) end.
  cbv beta.
  destruct (@refs_inc (a :: F) hp (home local) R (or_intror Hl1)) as [R1 K1].
  assert (K1' : keep F hp (inc (home local) hp)) by (eapply keep_sub; [|exact K1]; intros z Hz; cbn; auto).
  assert (Hm1 : homed (flat_map (fun p => homes_hold (fst (fst p))) args ++ flat_map (@homes W) body) F (inc (home local) hp)).
  { eapply homed_keep; [exact K1'|]. eapply homed_sub; [|exact Hm]. apply incl_tl, incl_refl. }
  eapply sim_bind.
  - apply sim_owning with (E := left_alone (a :: F) (inc (home local) hp)).
    { intros hp2 L. apply left_dec in L. destruct L as [R2 K2]. split; auto. eapply keep_trans; [exact K1'|exact K2]. }
    apply mapped_ok; [exact Hp|exact R1| | |].
    + apply K1; auto. right; left; auto.
    + apply K1; auto. left; auto.
    + eapply homed_sub; [|exact Hm1]. apply incl_appl, incl_refl.
  - intros l1 b1 w1 hp1 (R2 & H2 & K2). cbv beta.
    assert (K : keep (a :: F) hp hp1).
    { eapply keep_trans; [|exact K2]. eapply keep_sub; [|exact K1]. apply incl_tl, incl_refl. }
    eapply sim_bind.
    + apply sim_owning with (E := left_alone (a :: F) hp1).
      { intros hp2 L. apply left_dec in L. destruct L as [R3 K3]. split; auto. eapply keep_trans; [|exact K3].
        eapply keep_sub; [|exact K]. apply incl_tl, incl_refl. }
      apply (eval_of_steps Hb); eauto.
      eapply homed_more; [apply incl_tl, incl_refl|]. eapply homed_keep; [|eapply homed_sub; [|exact Hm1]; apply incl_appr, incl_refl].
      eapply keep_sub; [|exact K2]. apply incl_tl, incl_refl.
    + intros [x l2] [y b2] w2 hp2 (E & R3 & H3 & K3). cbn [fst snd] in *. subst y. cbn. split; auto.
      destruct (refs_dec R3) as [R4 K4]. split; auto. cbn. split; auto. split.
      * apply K4; [left; auto|]. apply K3; [left; auto|]. apply K; auto. left; auto.
      * eapply keep_trans; [eapply keep_sub; [|exact K]; apply incl_tl, incl_refl|].
        eapply keep_trans; eapply keep_sub; eauto; apply incl_tl, incl_refl.
Qed.

Lemma all_ok : (forall s, step_ok s) /\ (forall h, hold_ok h).
Proof.
  assert (L : forall v, hold_ok (HLit v)).
  { intros v i a F hp e w R H Hm. cbn. split; auto. split; auto. apply left_refl. auto. }
  assert (V : forall x, hold_ok (HVar x)).
  { intros x i a F hp e w R (c & Hc & D) Hm. cbn. unfold lift, h_fetch, on_heap, cell_at. cbn. rewrite Hc, D.
    unfold fetch. destruct (nth_error e x); cbn; auto. split; auto. split; auto. apply left_refl; auto. }
  split; [apply (@step_ind2 step_ok hold_ok)|apply (@hold_ind2 step_ok hold_ok)];
    auto using op_ok, def_ok, inject_ok, expr_ok.
Qed.
Lemma all_code c : code_ok c.
Proof. apply eval_of_steps, Forall_forall. intros s _. apply all_ok. Qed.

Lemma code_outcome c v a F hp e (w : W) : refs (a :: F) hp -> holds hp a e -> homed (flat_map (@homes W) c) F hp ->
  match eval c v e w with
  | (w', Ok (u, e')) => exists a' hp', h_eval home c v a (w, hp) = ((w', hp'), Ok (u, a')) /\
                                       refs (a' :: F) hp' /\ holds hp' a' e' /\ keep F hp hp'
  | (w', Err n) => exists hp', h_eval home c v a (w, hp) = ((w', hp'), Err n) /\ refs F hp' /\ keep F hp hp'
  | (w', Panic) => exists hp', h_eval home c v a (w, hp) = ((w', hp'), Panic)
  end.
Proof.
  intros R H Hm. assert (X := all_code c v w R H Hm). unfold sim in X.
  destruct (eval c v e w) as [w1 [[u e']|n|]], (h_eval home c v a (w, hp)) as [[w2 hp2] [[u2 a2]|n2|]]; try easy.
  - destruct X as (-> & E & X). cbn in E. subst u2. eauto 6.
  - destruct X as (-> & -> & X & X'). eauto.
  - subst. eauto.
Qed.
Lemma hold_outcome h v a F hp e (w : W) : refs (a :: F) hp -> holds hp a e -> homed (homes_hold h) F hp ->
  exists hp', h_resolve home h v a (w, hp) = ((fst (resolve h v e w), hp'), snd (resolve h v e w)) /\
    (snd (resolve h v e w) <> Panic -> refs (a :: F) hp' /\ keep (a :: F) hp hp').
Proof.
  intros R H Hm. assert (X := proj2 all_ok h v a F hp e w R H Hm). unfold sim in X.
  destruct (resolve h v e w) as [w1 [u|n|]], (h_resolve home h v a (w, hp)) as [[w2 hp2] [u2|n2|]]; try easy; cbn.
  - destruct X as (-> & -> & X). eauto.
  - destruct X as (-> & -> & X). eauto.
  - subst. exists hp2. split; auto. congruence.
Qed.

End Eval.
