(** Comparing. *)
From Coq Require Import String Ascii List ZArith NArith Bool Lia Arith DecimalString DecimalNat.
From Verif Require Import Model.Base Model.Value Model.TableOps Model.Exec Model.Intrinsics Model.Tuple Model.Compare
  Spec.ExecSpec Spec.LogicSpec Spec.TypeSpec Spec.CompareSpec Proofs.LinkProofs Proofs.LogicProofs Proofs.SortProofs.
Import ListNotations.
Set Implicit Arguments.

(** ** The order *)
Section ComparableInd.
  Variable P : ty -> Prop.
  Hypotheses (Hnil : P TNil) (Hbool : P TBool) (Hnum : P TNum) (Hstr : P TStr) (Hord : P TOrd)
    (Htup : forall ts, ts <> [] -> Forall comparable ts -> Forall P ts -> P (TDef (tuple_ty ts))).
  Fixpoint comparable_ind2 t (H : comparable t) {struct H} : P t :=
    match H in comparable t return P t with
    | comparable_nil => Hnil | comparable_bool => Hbool | comparable_num => Hnum | comparable_str => Hstr
    | comparable_ord => Hord
    | @comparable_tuple ts N F =>
        Htup N F ((fix go ts (F : Forall comparable ts) {struct F} : Forall P ts :=
                     match F in Forall _ ts return Forall P ts with
                     | Forall_nil _ => Forall_nil _
                     | Forall_cons x Hx F => Forall_cons x (comparable_ind2 Hx) (go _ F)
                     end) ts F)
    end.
End ComparableInd.

Definition first_diff : list value -> list value -> comparison :=
  fix first (xs ys : list value) : comparison :=
    match xs, ys with
    | x :: xs, y :: ys => match order x y with Eq => first xs ys | o => o end
    | _, _ => Eq
    end.
Lemma order_ogma d i xs d' j ys : order (VOgma d i xs) (VOgma d' j ys) = match Nat.compare i j with Eq => first_diff xs ys | o => o end.
Proof. reflexivity. Qed.

Lemma combine_snd {A B} (a : list A) (b : list B) : length a = length b -> map snd (combine a b) = b.
Proof. revert b. induction a as [|x a IH]; intros [|y b] H; cbn in *; try discriminate; auto. f_equal. apply IH. lia. Qed.
Lemma tuple_fields ts : exists n, tuple_ty ts = TyDef n (TProduct (combine (map tfield (seq 0 (length ts))) ts)) /\
  map snd (combine (map tfield (seq 0 (length ts))) ts) = ts.
Proof.
  eexists. split; [reflexivity|]. apply combine_snd. rewrite map_length, seq_length. reflexivity.
Qed.
Lemma has_tuple v ts : has_ty v (TDef (tuple_ty ts)) <-> exists data, v = VOgma (tuple_ty ts) 0 data /\ have_tys data ts.
Proof.
  destruct (tuple_fields ts) as (n & E & M). rewrite E. split.
  - intro H. inversion H; subst. rewrite M in *. eauto.
  - intros (data & -> & H). constructor. rewrite M. exact H.
Qed.
Lemma has_ord v : has_ty v TOrd <-> exists c, v = VOrd c.
Proof.
  split.
  - intro H. inversion H as [| | | | | | |n vs i x fs data Hi Hd]; subst.
    destruct i as [|[|[|i]]]; cbn in Hi; [| | |destruct i; discriminate]; injection Hi as <- <-; inversion Hd; subst;
      [exists Lt|exists Eq|exists Gt]; reflexivity.
  - intros [[| |] ->]; [eapply (@has_sum _ _ 1)|eapply (@has_sum _ _ 0)|eapply (@has_sum _ _ 2)]; try reflexivity; constructor.
Qed.
Lemma order_ord a b : order (VOrd a) (VOrd b) = Nat.compare (match a with Lt => 0 | Eq => 1 | Gt => 2 end) (match b with Lt => 0 | Eq => 1 | Gt => 2 end).
Proof. destruct a, b; reflexivity. Qed.
Lemma order_tuple ts xs ys : order (VOgma (tuple_ty ts) 0 xs) (VOgma (tuple_ty ts) 0 ys) = first_diff xs ys.
Proof. reflexivity. Qed.
Lemma dictionary_str a b : dictionary N.compare a b = str_cmp a b.
Proof. revert b. induction a as [|x a IH]; intros [|y b]; cbn; auto. rewrite IH. reflexivity. Qed.

Definition is_order (t : ty) : Prop :=
  (forall a b, has_ty a t -> has_ty b t -> (order a b = Eq <-> a = b)) /\
  (forall a b, has_ty a t -> has_ty b t -> order b a = CompOpp (order a b)) /\
  (forall a b c, has_ty a t -> has_ty b t -> has_ty c t -> order a b <> Gt -> order b c <> Gt -> order a c <> Gt).

Lemma trans_lt t a b c : is_order t -> has_ty a t -> has_ty b t -> has_ty c t ->
  order a b <> Gt -> order b c <> Gt -> order a c = Eq -> order a b = Eq /\ order b c = Eq.
Proof.
  intros (E & S & T) Ha Hb Hc H1 H2 H3. apply E in H3; auto. subst c.
  rewrite (S a b) in * by auto. destruct (order a b); cbn in *; auto; congruence.
Qed.

Lemma order_is_order t : comparable t -> is_order t.
Proof.
  intro C. induction C as [| | | | |ts N _ IH] using comparable_ind2; (split; [|split]).
  - intros a b Ha Hb. inversion Ha; inversion Hb; subst. cbn. tauto.
  - intros a b Ha Hb. inversion Ha; inversion Hb; subst. reflexivity.
  - intros a b c Ha Hb Hc. inversion Ha; inversion Hb; inversion Hc; subst. discriminate.
  - intros a b Ha Hb. inversion Ha as [|x| | | | | |]; inversion Hb as [|y| | | | | |]; subst. destruct x, y; cbn; split; congruence.
  - intros a b Ha Hb. inversion Ha as [|x| | | | | |]; inversion Hb as [|y| | | | | |]; subst. destruct x, y; reflexivity.
  - intros a b c Ha Hb Hc. inversion Ha as [|x| | | | | |]; inversion Hb as [|y| | | | | |]; inversion Hc as [|z| | | | | |]; subst.
    destruct x, y, z; cbn; congruence.
  - intros a b Ha Hb. inversion Ha as [| |x| | | | |]; inversion Hb as [| |y| | | | |]; subst. cbn. rewrite Z.compare_eq_iff. split; congruence.
  - intros a b Ha Hb. inversion Ha as [| |x| | | | |]; inversion Hb as [| |y| | | | |]; subst. cbn. apply Z.compare_antisym.
  - intros a b c Ha Hb Hc. inversion Ha as [| |x| | | | |]; inversion Hb as [| |y| | | | |]; inversion Hc as [| |z| | | | |]; subst. cbn.
    intros H1 H2. exact (Z.le_trans x y z H1 H2).
  - intros a b Ha Hb. inversion Ha as [| | |x| | | |]; inversion Hb as [| | |y| | | |]; subst. cbn. rewrite dictionary_str, str_cmp_eq. split; congruence.
  - intros a b Ha Hb. inversion Ha as [| | |x| | | |]; inversion Hb as [| | |y| | | |]; subst. cbn. rewrite !dictionary_str. apply str_cmp_antisym.
  - intros a b c Ha Hb Hc. inversion Ha as [| | |x| | | |]; inversion Hb as [| | |y| | | |]; inversion Hc as [| | |z| | | |]; subst. cbn.
    rewrite !dictionary_str. apply str_cmp_trans.
  - intros a b Ha Hb. apply has_ord in Ha, Hb. destruct Ha as [x ->], Hb as [y ->]. rewrite order_ord. destruct x, y; split; intro H; first [reflexivity|discriminate H].
  - intros a b Ha Hb. apply has_ord in Ha, Hb. destruct Ha as [x ->], Hb as [y ->]. destruct x, y; reflexivity.
  - intros a b c Ha Hb Hc. apply has_ord in Ha, Hb, Hc. destruct Ha as [x ->], Hb as [y ->], Hc as [z ->]. rewrite !order_ord. destruct x, y, z; cbn; congruence.
  - intros a b Ha Hb. apply has_tuple in Ha, Hb. destruct Ha as (xs & -> & Ha), Hb as (ys & -> & Hb). rewrite order_tuple.
    assert (G : first_diff xs ys = Eq <-> xs = ys).
    { clear N. revert ys Hb. induction Ha as [|x t xs ts Hx Hxs IH2]; intros ys Hb; inversion Hb as [|y ? ys' ? Hy Hys]; subst; cbn.
      - tauto.
      - inversion IH as [|? ? (E & _) IHt]; subst. specialize (IH2 IHt _ Hys). specialize (E x y Hx Hy).
        destruct (order x y) eqn:O.
        + rewrite IH2. split; [intros ->|congruence]. f_equal. apply E. reflexivity.
        + split; [discriminate|]. intro X. injection X as -> ->. discriminate (proj2 E eq_refl).
        + split; [discriminate|]. intro X. injection X as -> ->. discriminate (proj2 E eq_refl). }
    rewrite G. split; congruence.
  - intros a b Ha Hb. apply has_tuple in Ha, Hb. destruct Ha as (xs & -> & Ha), Hb as (ys & -> & Hb). rewrite !order_tuple.
    clear N. revert ys Hb. induction Ha as [|x t xs ts Hx Hxs IH2]; intros ys Hb; inversion Hb as [|y ? ys' ? Hy Hys]; subst; cbn; auto.
    inversion IH as [|? ? (_ & S & _) IHt]; subst. specialize (IH2 IHt _ Hys). rewrite (S x y Hx Hy). destruct (order x y); cbn; auto.
  - intros a b c Ha Hb Hc. apply has_tuple in Ha, Hb, Hc. destruct Ha as (xs & -> & Ha), Hb as (ys & -> & Hb), Hc as (zs & -> & Hc).
    rewrite !order_tuple.
    clear N. revert ys Hb zs Hc. induction Ha as [|x t xs ts Hx Hxs IH2]; intros ys Hb zs Hc;
      inversion Hb as [|y ? ys' ? Hy Hys]; inversion Hc as [|z ? zs' ? Hz Hzs]; subst; cbn; auto.
    inversion IH as [|? ? O IHt]; subst. specialize (IH2 IHt _ Hys _ Hzs). intros H1 H2.
    assert (T : order x y <> Gt) by (destruct (order x y); congruence).
    assert (U : order y z <> Gt) by (destruct (order y z); congruence).
    assert (V : order x z <> Gt) by (destruct O as (_ & _ & T3); apply (T3 x y z); auto).
    destruct (order x z) eqn:XZ; [|discriminate|congruence].
    destruct (trans_lt O Hx Hy Hz T U XZ) as [E1 E2]. rewrite E1 in H1. rewrite E2 in H2. auto.
Qed.

(** ** Names of the fields of tuples *)
Lemma lit_inj a b : lit a = lit b -> a = b.
Proof.
  revert b. induction a as [|c a IH]; intros [|d b] H; cbn in H; try discriminate; auto.
  injection H as H1 H2. f_equal; auto. rewrite <- (ascii_N_embedding c), <- (ascii_N_embedding d), H1. reflexivity.
Qed.
Lemma tfield_inj i j : tfield i = tfield j -> i = j.
Proof.
  unfold tfield, dec. intro H. apply app_inv_head in H. apply lit_inj in H.
  apply (f_equal NilEmpty.uint_of_string) in H. rewrite !NilEmpty.usu in H. injection H as H.
  apply (f_equal Nat.of_uint) in H. rewrite !Unsigned.of_to in H. exact H.
Qed.
Lemma find_tfield {A} (ts : list A) i : forall k, nth_error ts i <> None ->
  find_field (tfield (k + i)) (combine (map tfield (seq k (length ts))) ts) = match nth_error ts i with Some t => Some (i, t) | None => None end.
Proof.
  revert i. induction ts as [|t ts IH]; intros i k H; [destruct i; cbn in H; congruence|].
  cbn [length seq map combine find_field]. destruct i as [|i].
  - rewrite Nat.add_0_r, str_eqb_refl. reflexivity.
  - destruct (str_eqb_spec (tfield k) (tfield (k + S i))) as [E|_].
    + apply tfield_inj in E. lia.
    + cbn [nth_error] in *. specialize (IH i (S k) H). rewrite Nat.add_succ_r. cbn [Nat.add] in IH. rewrite IH.
      destruct (nth_error ts i); reflexivity.
Qed.
Lemma find_map {A B} (f : A -> B) x (l : list (str * A)) :
  find_field x (map (fun p : str * A => let (y, a) := p in (y, f a)) l) = match find_field x l with Some (i, a) => Some (i, f a) | None => None end.
Proof.
  induction l as [|[y a] l IH]; cbn; auto. destruct (str_eqb y x); auto. rewrite IH. destruct (find_field x l) as [[? ?]|]; auto.
Qed.
Lemma tuple_is_tuple ts : ts <> [] -> is_tuple (tuple_ty ts) = true /\ is_ord (tuple_ty ts) = false.
Proof.
  intro N. destruct ts as [|t ts]; [congruence|]. unfold is_tuple, is_ord, tuple_ty, td_name, tuple_name. cbn [flat_map].
  assert (E : exists l, removelast (lit "U_" ++ (tyname t ++ lit "-") ++ flat_map (fun a => tyname a ++ lit "-") ts) = 85%N :: 95%N :: l).
  { change (lit "U_") with [85; 95]%N. cbn [app].
    destruct ((tyname t ++ lit "-") ++ flat_map (fun a => tyname a ++ lit "-") ts) as [|c l] eqn:E.
    - apply app_eq_nil in E. destruct E as [E _]. apply app_eq_nil in E. destruct E as [_ E]. discriminate.
    - exists (removelast (c :: l)). reflexivity. }
  destruct E as [l ->]. split; reflexivity.
Qed.

Lemma sequence_map {A B} (F : A -> res B) l : (forall x, In x l -> exists b, F x = Ok b) ->
  exists bs, sequence (map F l) = Ok bs /\ Forall2 (fun x b => F x = Ok b) l bs.
Proof.
  induction l as [|x l IH]; intro H; cbn [map sequence]; [eauto|].
  destruct (H x) as [b E]; [left; auto|]. destruct IH as (bs & E2 & F2); [intros; apply H; right; auto|].
  rewrite E. cbn [rbind]. rewrite E2. cbn [rbind]. eauto.
Qed.
Lemma Forall2_nth {A B} (R : A -> B -> Prop) l l' : Forall2 R l l' -> forall i a, nth_error l i = Some a -> exists b, nth_error l' i = Some b /\ R a b.
Proof.
  induction 1 as [|a0 b0 l l' H F IH]; intros [|i] x Hx; cbn in *; try discriminate; eauto. injection Hx as <-. eauto.
Qed.
Lemma nth_seq k n i : i < n -> nth_error (seq k n) i = Some (k + i).
Proof.
  revert k i. induction n as [|n IH]; intros k i H; [lia|]. destruct i as [|i]; cbn; [f_equal; lia|]. rewrite IH by lia. f_equal. lia.
Qed.

Section Run.
Variable W : Type.
Local Notation hold := (hold W).
Local Notation step := (step W).

(** what a hold gives, with no effect *)
Definition gives (h : hold) (v : value) (e : env) (x : value) : Prop := forall w : W, resolve h v e w = (w, Ok x).

Lemma put_at e k v : k < length e -> exists e', put k v e = Some e' /\ length e' = length e /\
  nth_error e' k = Some v /\ forall j, j <> k -> nth_error e' j = nth_error e j.
Proof.
  revert k. induction e as [|x e IH]; intros k H; [cbn in H; lia|]. destruct k as [|k]; cbn [put].
  - exists (v :: e). repeat split; auto. intros [|j] Hj; [congruence|reflexivity].
  - cbn in H. destruct (IH k) as (e' & E & L & N & O); [lia|]. rewrite E. exists (x :: e'). repeat split; auto; [cbn; lia|].
    intros [|j] Hj; cbn; auto.
Qed.
Lemma gives_var i v e x : nth_error e i = Some x -> gives (HVar i) v e x.
Proof. intros H w. cbn [resolve]. unfold lift, fetch. rewrite H. reflexivity. Qed.
Lemma gives_dot h i v e d k data x : gives h v e (VOgma d k data) -> nth_error data i = Some x -> gives (HExpr [dot_step h i]) v e x.
Proof.
  intros H E w. rewrite resolve_expr. cbn [eval]. unfold dot_step. unfold bind at 1 2. rewrite invoke_op. cbn [run_act map nth_error].
  unfold bind at 1. rewrite H. cbn [field_get]. rewrite E. reflexivity.
Qed.
Lemma gives_ord c v e : gives (ord_arg W c) v e (VOrd c).
Proof. intro w. reflexivity. Qed.

Lemma eval_one (s : step) v e w : eval [s] v e w = invoke s v e w.
Proof. cbn [eval]. unfold bind. destruct (invoke s v e w) as [w1 [[x e']| |]]; reflexivity. Qed.
Lemma eval_two (s1 s2 : step) v e w : eval [s1; s2] v e w = bind (invoke s1 v e) (fun p => invoke s2 (fst p) (snd p)) w.
Proof.
  change (eval [s1; s2] v e w) with (bind (invoke s1 v e) (fun p => eval [s2] (fst p) (snd p)) w).
  unfold bind at 1 2. destruct (invoke s1 v e w) as [w1 [[x e']| |]]; auto. apply eval_one.
Qed.
Lemma invoke_get i v e w d k data x : v = VOgma d k data -> nth_error data i = Some x -> invoke (get_step W i) v e w = (w, Ok (x, e)).
Proof. intros -> E. unfold get_step. rewrite invoke_op. cbn [field_get]. rewrite E. reflexivity. Qed.

(** a call with one parameter *)
Lemma invoke_call1 k (rhs : hold) body v e w w1 r : k < length e -> resolve rhs v e w = (w1, Ok r) ->
  exists e', put k r e = Some e' /\ invoke (Def [(Some k, rhs)] body) v e w = eval body v e' w1.
Proof.
  intros L H. destruct (put_at e r L) as (e' & E & _). exists e'. split; auto.
  rewrite invoke_def. cbn [map fst snd bind_params]. unfold bind at 1 2. rewrite H. unfold bind, lift. cbn [set_data]. rewrite E. reflexivity.
Qed.

(** ** Comparing values that are not tuples *)
Lemma run_compare_with A (from : value -> res A) to f (rhs : hold) v e w w1 r a b :
  from v = Ok a -> to a = v -> resolve rhs v e w = (w1, Ok r) -> from r = Ok b ->
  invoke (compare_with from to f rhs) v e w = (w1, Ok (f a b, e)).
Proof.
  intros Ha Hv H Hb. unfold compare_with. rewrite invoke_op. rewrite Ha. cbn [try run_act map nth_error]. rewrite Hv.
  unfold bind. rewrite H, Hb. reflexivity.
Qed.
Lemma stop_compare_with A (from : value -> res A) to f (rhs : hold) v e w w1 g a :
  from v = Ok a -> to a = v -> resolve rhs v e w = (w1, halt g) ->
  invoke (compare_with from to f rhs) v e w = (w1, halt g).
Proof.
  intros Ha Hv H. unfold compare_with. rewrite invoke_op. rewrite Ha. cbn [try run_act map nth_error]. rewrite Hv.
  unfold bind. rewrite H. destruct g; reflexivity.
Qed.
Definition ord_idx (c : comparison) : nat := match c with Lt => 0 | Eq => 1 | Gt => 2 end.
Lemma run_compare_ord f (rhs : hold) e w w1 a b : resolve rhs (VOrd a) e w = (w1, Ok (VOrd b)) ->
  invoke (compare_ord f rhs) (VOrd a) e w = (w1, Ok (f (ord_idx a) (ord_idx b), e)).
Proof.
  intros H. unfold compare_ord. rewrite invoke_op. cbn [as_variant variant_idx VOrd ord_tydef try run_act map nth_error].
  change (VOgma _ _ []) with (VOrd a). unfold bind. rewrite H. reflexivity.
Qed.
Lemma stop_compare_ord f (rhs : hold) e w w1 a g : resolve rhs (VOrd a) e w = (w1, halt g) ->
  invoke (compare_ord f rhs) (VOrd a) e w = (w1, halt g).
Proof.
  intros H. unfold compare_ord. rewrite invoke_op. cbn [as_variant variant_idx VOrd ord_tydef try run_act map nth_error].
  change (VOgma _ _ []) with (VOrd a). unfold bind. rewrite H. destruct g; reflexivity.
Qed.

(** ** What it means to be right *)
Definition right (result : comparison -> value) (t : ty) (rhs : hold) (s : step) : Prop :=
  forall v e w, has_ty v t ->
  match t with
  | TNil => invoke s v e w = (w, Ok (result Eq, e))
  | _ => (forall w1 r, resolve rhs v e w = (w1, Ok r) -> has_ty r t -> invoke s v e w = (w1, Ok (result (order v r), e))) /\
         (forall w1 g, resolve rhs v e w = (w1, halt g) -> invoke s v e w = (w1, halt g))
  end.
Definition beq (c : comparison) : value := VBool (match c with Eq => true | _ => false end).

Lemma right_gives result t rhs s v e r : right result t rhs s -> has_ty v t -> has_ty r t -> gives rhs v e r ->
  forall w, invoke s v e w = (w, Ok (result (order v r), e)).
Proof.
  intros R Hv Hr G w. specialize (R v e w Hv). destruct t; try (apply R; auto; fail).
  inversion Hv; inversion Hr; subst. exact R.
Qed.

Lemma right_bool rhs : right VOrd TBool rhs (cmp_bool rhs) /\ right beq TBool rhs (eq_bool rhs).
Proof.
  split; intros v e w Hv; inversion Hv as [|b| | | | | |]; subst; (split; [intros w1 r Hr Tr|intros w1 g Hr]).
  - inversion Tr as [|c| | | | | |]; subst. unfold cmp_bool. rewrite (@run_compare_with _ as_bool VBool _ rhs (VBool b) e w w1 (VBool c) b c eq_refl eq_refl Hr eq_refl). destruct b, c; reflexivity.
  - exact (@stop_compare_with _ as_bool VBool _ rhs (VBool b) e w w1 g b eq_refl eq_refl Hr).
  - inversion Tr as [|c| | | | | |]; subst. unfold eq_bool. rewrite (@run_compare_with _ as_bool VBool _ rhs (VBool b) e w w1 (VBool c) b c eq_refl eq_refl Hr eq_refl). destruct b, c; reflexivity.
  - exact (@stop_compare_with _ as_bool VBool _ rhs (VBool b) e w w1 g b eq_refl eq_refl Hr).
Qed.
Lemma right_num rhs : right VOrd TNum rhs (cmp_num rhs) /\ right beq TNum rhs (eq_num rhs).
Proof.
  split; intros v e w Hv; inversion Hv as [| |b| | | | |]; subst; (split; [intros w1 r Hr Tr|intros w1 g Hr]).
  - inversion Tr as [| |c| | | | |]; subst. unfold cmp_num. rewrite (@run_compare_with _ as_num VNum _ rhs (VNum b) e w w1 (VNum c) b c eq_refl eq_refl Hr eq_refl). reflexivity.
  - exact (@stop_compare_with _ as_num VNum _ rhs (VNum b) e w w1 g b eq_refl eq_refl Hr).
  - inversion Tr as [| |c| | | | |]; subst. unfold eq_num. rewrite (@run_compare_with _ as_num VNum _ rhs (VNum b) e w w1 (VNum c) b c eq_refl eq_refl Hr eq_refl). cbn [order].
    unfold beq. rewrite Z.eqb_compare. reflexivity.
  - exact (@stop_compare_with _ as_num VNum _ rhs (VNum b) e w w1 g b eq_refl eq_refl Hr).
Qed.
Lemma right_str rhs : right VOrd TStr rhs (cmp_str rhs) /\ right beq TStr rhs (eq_str rhs).
Proof.
  split; intros v e w Hv; inversion Hv as [| | |b| | | |]; subst; (split; [intros w1 r Hr Tr|intros w1 g Hr]).
  - inversion Tr as [| | |c| | | |]; subst. unfold cmp_str. rewrite (@run_compare_with _ as_str VStr _ rhs (VStr b) e w w1 (VStr c) b c eq_refl eq_refl Hr eq_refl). cbn [order].
    rewrite dictionary_str. reflexivity.
  - exact (@stop_compare_with _ as_str VStr _ rhs (VStr b) e w w1 g b eq_refl eq_refl Hr).
  - inversion Tr as [| | |c| | | |]; subst. unfold eq_str. rewrite (@run_compare_with _ as_str VStr _ rhs (VStr b) e w w1 (VStr c) b c eq_refl eq_refl Hr eq_refl). cbn [order].
    unfold beq. rewrite dictionary_str. destruct (str_cmp b c) eqn:E.
    + apply str_cmp_eq in E. subst. rewrite str_eqb_refl. reflexivity.
    + destruct (str_eqb_spec b c) as [->|_]; auto. rewrite str_cmp_refl in E. discriminate.
    + destruct (str_eqb_spec b c) as [->|_]; auto. rewrite str_cmp_refl in E. discriminate.
  - exact (@stop_compare_with _ as_str VStr _ rhs (VStr b) e w w1 g b eq_refl eq_refl Hr).
Qed.
Lemma right_ord rhs : right VOrd TOrd rhs (cmp_ord rhs) /\ right beq TOrd rhs (eq_ord rhs).
Proof.
  split; intros v e w Hv; apply has_ord in Hv; destruct Hv as [a ->]; (split; [intros w1 r Hr Tr|intros w1 g Hr]).
  - apply has_ord in Tr. destruct Tr as [b ->]. unfold cmp_ord. rewrite (@run_compare_ord _ rhs e w w1 a b Hr). destruct a, b; reflexivity.
  - apply stop_compare_ord. exact Hr.
  - apply has_ord in Tr. destruct Tr as [b ->]. unfold eq_ord. rewrite (@run_compare_ord _ rhs e w w1 a b Hr). destruct a, b; reflexivity.
  - apply stop_compare_ord. exact Hr.
Qed.

(** generated code *)
Lemma invoke_injected (rhs : hold) n body v e w : 0 < n ->
  (forall w1 g, resolve rhs v e w = (w1, halt g) -> invoke (Inject [(rhs, Some 0, None)] (env_new n) body) v e w = (w1, halt g)) /\
  (forall w1 r l, resolve rhs v e w = (w1, Ok r) -> l = r :: env_new (pred n) ->
     forall u l', eval body v l w1 = (w1, Ok (u, l')) -> invoke (Inject [(rhs, Some 0, None)] (env_new n) body) v e w = (w1, Ok (u, e))).
Proof.
  intro L. rewrite invoke_inject. cbn [map bind_params]. split.
  - intros w1 g H. unfold bind. rewrite H. destruct g; reflexivity.
  - intros w1 r l H -> u l' E. destruct n as [|n]; [lia|]. unfold bind, lift. rewrite H. cbn [env_new repeat set_data put].
    cbn [pred] in E. unfold env_new in *. cbn [repeat put]. unfold ret. rewrite E. reflexivity.
Qed.

(** *** eq *)
Lemma loop_all (hs : list hold) bs v e w : forall prev, Forall2 (fun h b => gives h v e (VBool b)) hs bs ->
  loopf as_bool (@and_agg) v (map (in_env e) hs) prev w = (w, Ok (if forallb (fun b => b) bs then prev else false)) \/ hs = [] \/
  (prev = false /\ loopf as_bool (@and_agg) v (map (in_env e) hs) prev w = (w, Ok false)).
Proof.
  intros prev F. revert prev. induction F as [|h b hs bs G F IH]; intros prev; [auto|]. cbn [map loopf].
  unfold in_env at 1 3. rewrite (G w). cbn [as_bool]. unfold and_agg. cbn [forallb].
  destruct prev; cbn [andb negb]; [|right; right; auto]. destruct b; cbn [negb andb]; [|left; auto].
  destruct (IH true) as [E|[->|[E _]]]; [left; exact E| |discriminate]. left. inversion F; subst. reflexivity.
Qed.
Lemma run_and (hs : list hold) bs v e w : hs <> [] -> Forall2 (fun h b => gives h v e (VBool b)) hs bs ->
  invoke (and_step hs) v e w = (w, Ok (VBool (forallb (fun b => b) bs), e)).
Proof.
  intros N F. destruct F as [|h b hs bs G F]; [congruence|]. unfold and_step, agnostic_step. rewrite invoke_op.
  cbn [run_act map nth_error length pred]. unfold bind. rewrite (G w). cbn [as_bool try].
  assert (X := loop_eq as_bool VBool (@and_agg) v e hs [h] b w). cbn [length app map] in X. etransitivity; [exact X|].
  destruct (loop_all w b F) as [->|[->|[-> ->]]].
  - cbn [forallb final]. destruct b, (forallb _ bs); reflexivity.
  - inversion F; subst. cbn. destruct b; reflexivity.
  - reflexivity.
Qed.

Lemma have_nth data ts : have_tys data ts -> length data = length ts /\
  forall i t, nth_error ts i = Some t -> exists x, nth_error data i = Some x /\ has_ty x t.
Proof.
  induction 1 as [|v t vs ts H _ [L IH]]; split; auto.
  - intros [|i]; discriminate.
  - cbn. congruence.
  - intros [|i] t' E; cbn in *; [|auto]. injection E as <-. eauto.
Qed.

Lemma eq_right t : comparable t -> forall rhs, exists s, eq_step t rhs = Ok s /\ right beq t rhs s.
Proof.
  intro C. induction C as [| | | | |ts N _ IH] using comparable_ind2; intro rhs.
  - eexists. split; [reflexivity|]. intros v e w _. reflexivity.
  - eexists. split; [reflexivity|]. apply right_bool.
  - eexists. split; [reflexivity|]. apply right_num.
  - eexists. split; [reflexivity|]. apply right_str.
  - eexists. split; [reflexivity|]. apply right_ord.
  - destruct (tuple_is_tuple N) as [It Io].
    assert (E : eq_step (TDef (tuple_ty ts)) rhs =
      let fs := combine (map tfield (seq 0 (length ts))) ts in
      let cs := map (fun f : str * ty => let (x, t) := f in (x, @eq_step W t)) fs in
      let? es := sequence (map (fun i =>
          match find_field (tfield i) cs with
          | Some (j, c) => let? s := c (HVar (S i)) in Ok (eq_elem i j s)
          | None => Err 9
          end) (seq 0 (length fs))) in
      match es with
      | [] => Err 1
      | _ => Ok (Inject [(rhs, Some 0, None)] (env_new (S (length fs))) [and_step es])
      end).
    { transitivity (if is_ord (tuple_ty ts) then Ok (eq_ord rhs) else if is_tuple (tuple_ty ts) then
        eq_step (TDef (tuple_ty ts)) rhs else Err 7); [rewrite It, Io; reflexivity|].
      rewrite Io, It. cbn [eq_step]. rewrite Io, It. reflexivity. }
    cbn zeta in E. set (fs := combine (map tfield (seq 0 (length ts))) ts) in *.
    assert (Lf : length fs = length ts) by (unfold fs; rewrite combine_length, map_length, seq_length; lia).
    rewrite Lf in E.
    assert (Fi : forall i t, nth_error ts i = Some t -> find_field (tfield i) (map (fun f : str * ty => let (x, t) := f in (x, @eq_step W t)) fs) = Some (i, @eq_step W t)).
    { intros i t Ht. rewrite find_map. unfold fs. assert (X := @find_tfield _ ts i 0). cbn [Nat.add] in X. rewrite X, Ht by congruence. reflexivity. }
    match type of E with _ = rbind (sequence (map ?F ?l)) _ => destruct (@sequence_map _ _ F l) as (es & Ees & Fes) end.
    { intros i Hi. apply in_seq in Hi. destruct (nth_error ts i) as [t|] eqn:Et; [|apply nth_error_None in Et; lia].
      rewrite (Fi _ _ Et). rewrite Forall_forall in IH. destruct (IH t (nth_error_In _ _ Et) (HVar (S i))) as (s & Es & _). rewrite Es.
      cbn [rbind]. eauto. }
    rewrite Ees in E. cbn [rbind] in E.
    assert (Le : length es = length ts) by (rewrite <- (Forall2_len Fes), seq_length; reflexivity).
    assert (Ne : es <> []) by (intros ->; destruct ts; cbn in *; congruence).
    exists (Inject [(rhs, Some 0, None)] (env_new (S (length ts))) [and_step es]).
    split; [rewrite E; destruct es; [congruence|reflexivity]|].
    intros v e w Hv. apply has_tuple in Hv. destruct Hv as (xs & -> & Hxs).
    destruct (@invoke_injected rhs (S (length ts)) [and_step es] (VOgma (tuple_ty ts) 0 xs) e w ltac:(lia)) as [Istop Irun].
    split; [|exact Istop]. intros w1 r Hr Tr. apply has_tuple in Tr. destruct Tr as (ys & -> & Hys).
    destruct (have_nth Hxs) as [Lx Nx], (have_nth Hys) as [Ly Ny].
    set (l := VOgma (tuple_ty ts) 0 ys :: env_new (pred (S (length ts)))).
    refine (Irun w1 _ l Hr eq_refl _ l _). rewrite eval_one.
    assert (Ll : length l = S (length ts)) by (unfold l, env_new; cbn; rewrite repeat_length; reflexivity).
    assert (Fb : Forall2 (fun h b => gives h (VOgma (tuple_ty ts) 0 xs) l (VBool b)) es
                  (map (fun p => match order (fst p) (snd p) with Eq => true | _ => false end) (combine xs ys))).
    { assert (G : forall i h, nth_error es i = Some h -> exists x y, nth_error xs i = Some x /\ nth_error ys i = Some y /\
                gives h (VOgma (tuple_ty ts) 0 xs) l (beq (order x y))).
      { intros i h Hh. assert (Hi : i < length ts) by (rewrite <- Le; apply nth_error_Some; congruence).
        destruct (Forall2_nth Fes i (nth_seq 0 Hi)) as (h' & Hh' & Fh). rewrite Hh in Hh'. injection Hh' as <-. cbn [Nat.add] in Fh.
        destruct (nth_error ts i) as [t|] eqn:Et; [|apply nth_error_None in Et; lia]. rewrite (Fi _ _ Et) in Fh.
        destruct (Nx _ _ Et) as (x & Ex & Tx), (Ny _ _ Et) as (y & Ey & Ty). exists x, y. split; [exact Ex|]. split; [exact Ey|].
        rewrite Forall_forall in IH. destruct (IH t (nth_error_In _ _ Et) (HVar (S i))) as (s & Es & Rs). rewrite Es in Fh. cbn [rbind] in Fh.
        injection Fh as <-. intro w2. unfold eq_elem. rewrite resolve_expr. unfold bind at 1. rewrite eval_two. unfold bind at 1.
        rewrite (@invoke_get i _ l w2 (tuple_ty ts) 0 xs x eq_refl Ex). cbn [fst snd].
        destruct (@invoke_call1 (S i) (HExpr [dot_step (HVar 0) i]) [s] x l w2 w2 y) as (l' & El' & ->); [lia| |].
        { eapply gives_dot; [|exact Ey]. apply gives_var. reflexivity. }
        rewrite eval_one. rewrite (right_gives Rs Tx Ty); [reflexivity|]. apply gives_var.
        destruct (put_at l y (k := S i)) as (l2 & El2 & _ & N2 & _); [lia|]. rewrite El' in El2. injection El2 as <-. exact N2. }
      clearbody l. clear - G Le Lx Ly. assert (Lx' : length xs = length es) by congruence. assert (Ly' : length ys = length es) by congruence. clear Le Lx Ly.
      generalize dependent (VOgma (tuple_ty ts) 0 xs). intros v. revert xs ys Lx' Ly'. induction es as [|h es IH]; intros xs ys Lx Ly G.
      - destruct xs; [constructor|discriminate].
      - destruct xs as [|x xs]; [discriminate|]. destruct ys as [|y ys]; [discriminate|]. cbn [combine map]. constructor.
        + destruct (G 0 h eq_refl) as (x' & y' & Hx & Hy & g). injection Hx as <-. injection Hy as <-. exact g.
        + apply IH; [cbn in *; lia|cbn in *; lia|]. intros i h' Hh. apply (G (S i) h' Hh). }
    rewrite (@run_and es _ _ l w1 Ne Fb). f_equal. f_equal. f_equal. unfold beq. f_equal.
    rewrite order_tuple. clear - Lx Ly. assert (L : length xs = length ys) by congruence. clear Lx Ly. revert ys L.
    induction xs as [|x xs IH]; intros [|y ys] L; cbn in *; try discriminate; auto.
    destruct (order x y); auto. apply IH. lia.
Qed.

(** *** cmp *)
Lemma run_let (es : list hold) n v (cs : nat -> value) (r : value) L :
  n = length es -> n < L ->
  (forall i e, i < n -> length e = L -> nth_error e 0 = Some r -> exists h, nth_error es i = Some h /\ gives h v e (cs i)) ->
  forall k i e w, k + i = n -> length e = L -> nth_error e 0 = Some r -> (forall j, j < i -> nth_error e (S j) = Some (cs j)) ->
  exists e', run_act (map (@resolve W) es) (map (fun i => Some (S i)) (seq 0 n)) (let_loop W k i false v) e w = (w, Ok (v, e')) /\
    length e' = L /\ nth_error e' 0 = Some r /\ forall j, j < n -> nth_error e' (S j) = Some (cs j).
Proof.
  intros En Ln Hg. induction k as [|k IH]; intros i e w Hk Hl H0 Hj; cbn [let_loop run_act].
  - exists e. repeat split; auto. intros j Hj'. apply Hj. lia.
  - destruct (Hg i e) as (h & Hh & G); [lia|auto|auto|]. rewrite nth_error_map, Hh. cbn [option_map]. unfold bind at 1. rewrite G.
    rewrite nth_error_map, nth_seq by lia. cbn [option_map Nat.add].
    destruct (put_at e (cs i) (k := S i)) as (e' & E & L' & N & O); [lia|].
    destruct (IH (S i) e' w) as (e2 & R & X); [lia|lia| |  |].
    + rewrite O by lia. exact H0.
    + intros j Hj'. destruct (Nat.eq_dec j i) as [->|Nj]; [exact N|]. rewrite O by lia. apply Hj. lia.
    + exists e2. split; [|exact X]. unfold bind, lift. cbn [set_data]. rewrite E. exact R.
Qed.

Lemma run_ne (c : comparison) k e w : k < length e ->
  exists e', invoke (ne_ord k (ord_arg W Eq)) (VOrd c) e w = (w, Ok (VBool (match c with Eq => false | _ => true end), e')).
Proof.
  intro L. unfold ne_ord. destruct (@invoke_call1 k (ord_arg W Eq) [eq_ord (HVar k); not_step W] (VOrd c) e w w (VOrd Eq) L) as (e' & E & ->).
  { apply gives_ord. }
  exists e'. rewrite eval_two. unfold bind.
  destruct (put_at e (VOrd Eq) L) as (e2 & E2 & _ & N & _). rewrite E in E2. injection E2 as <-.
  destruct (right_ord (HVar k)) as [_ R]. rewrite (@right_gives _ _ _ _ (VOrd c) e' (VOrd Eq) R).
  - cbn [fst snd]. unfold not_step. rewrite invoke_op. destruct c; reflexivity.
  - apply has_ord. eauto.
  - apply has_ord. eauto.
  - apply gives_var. exact N.
Qed.

Fixpoint first_of (cs : list comparison) (last : comparison) : comparison :=
  match cs with [] => last | Eq :: cs => first_of cs last | c :: _ => c end.

Lemma run_pick n (c : nat -> comparison) v e w : 0 < n -> length e = S n + pred n ->
  (forall j, j < n -> nth_error e (S j) = Some (VOrd (c j))) ->
  invoke (cmp_pick W n) v e w = (w, Ok (VOrd (first_of (map c (seq 0 (pred n))) (c (pred n))), e)).
Proof.
  intros Ln Le Hc. unfold cmp_pick, if_step. rewrite invoke_op.
  set (hc := map (fun i => (cmp_pred W n i, @HVar W (S i))) (seq 0 (pred n))).
  assert (E : flat_map (fun i => [cmp_pred W n i; HVar (S i)]) (seq 0 (pred n)) = flat_map (fun c : hold * hold => [fst c; snd c]) hc).
  { unfold hc. generalize (seq 0 (pred n)). induction l as [|x l IH]; cbn; auto. rewrite IH. reflexivity. }
  rewrite E. assert (X := if_loop_eq v e hc (HVar n) [] w). cbn [app length] in X.
  replace (length hc) with (pred n) in X by (unfold hc; rewrite map_length, seq_length; reflexivity). etransitivity; [exact X|].
  unfold hc. rewrite map_map. cbn [fst snd].
  assert (G : forall m k, k + m = pred n -> iff_run v (map (fun i => (in_env e (cmp_pred W n i), in_env e (@HVar W (S i)))) (seq k m)) (in_env e (HVar n)) w
            = (w, Ok (VOrd (first_of (map c (seq k m)) (c (pred n)))))).
  { induction m as [|m IH]; intros k Hk; cbn [seq map iff_run first_of].
    - unfold in_env. rewrite (gives_var n v e (x := VOrd (c (pred n)))); auto.
      destruct n as [|n]; [lia|]. apply Hc. cbn. lia.
    - assert (P : in_env e (cmp_pred W n k) v w = (w, Ok (VBool (match c k with Eq => false | _ => true end)))).
      { unfold in_env, cmp_pred. rewrite resolve_expr. unfold bind at 1. rewrite eval_two. unfold bind at 1.
        unfold in_step at 1. rewrite invoke_op. cbn [run_act map nth_error]. unfold bind at 1.
        rewrite (gives_var (S k) v e (Hc k ltac:(lia))). cbn [run_act ret fst snd]. unfold ret. cbn [fst snd].
        destruct (@run_ne (c k) (S n + k) e w) as (e' & R); [lia|]. rewrite R. reflexivity. }
      rewrite P. cbn [as_bool]. destruct (c k) eqn:Ck.
      + apply IH. lia.
      + unfold in_env. rewrite (gives_var (S k) v e (Hc k ltac:(lia))), Ck. reflexivity.
      + unfold in_env. rewrite (gives_var (S k) v e (Hc k ltac:(lia))), Ck. reflexivity. }
  rewrite (G (pred n) 0) by lia. reflexivity.
Qed.

Lemma first_diff_of xs : forall ys, length xs = length ys -> xs <> [] ->
  first_diff xs ys = first_of (map (fun i => order (nth i xs VNil) (nth i ys VNil)) (seq 0 (pred (length xs))))
                              (order (nth (pred (length xs)) xs VNil) (nth (pred (length xs)) ys VNil)).
Proof.
  induction xs as [|x xs IH]; intros [|y ys] L N; cbn in L; try congruence; try discriminate.
  destruct xs as [|x' xs].
  - destruct ys; [|discriminate]. cbn. destruct (order x y); reflexivity.
  - specialize (IH ys ltac:(lia) ltac:(discriminate)). cbn [length pred] in *. cbn [seq map first_of nth].
    rewrite <- seq_shift, map_map. cbn [nth].
    change (first_diff (x :: x' :: xs) (y :: ys)) with (match order x y with Eq => first_diff (x' :: xs) ys | o => o end).
    destruct (order x y); auto.
Qed.

Lemma cmp_right t : comparable t -> forall rhs, exists s, cmp_step t rhs = Ok s /\ right VOrd t rhs s.
Proof.
  intro C. induction C as [| | | | |ts N _ IH] using comparable_ind2; intro rhs.
  - eexists. split; [reflexivity|]. intros v e w _. reflexivity.
  - eexists. split; [reflexivity|]. apply right_bool.
  - eexists. split; [reflexivity|]. apply right_num.
  - eexists. split; [reflexivity|]. apply right_str.
  - eexists. split; [reflexivity|]. apply right_ord.
  - destruct (tuple_is_tuple N) as [It Io].
    assert (E : cmp_step (TDef (tuple_ty ts)) rhs =
      let fs := combine (map tfield (seq 0 (length ts))) ts in
      let cs := map (fun f : str * ty => let (x, t) := f in (x, @cmp_step W t)) fs in
      let n := length fs in
      let? es := sequence (map (fun i =>
          match find_field (tfield i) cs with
          | Some (j, c) => let? s := c (HExpr [dot_step (HVar 0) j]) in Ok (cmp_elem j s)
          | None => Err 9
          end) (seq 0 n)) in
      match es with
      | [] => Err 3
      | _ => Ok (Inject [(rhs, Some 0, None)] (env_new (S n + pred n))
                   [let_step es (map (fun i => Some (S i)) (seq 0 n)); cmp_pick W n])
      end).
    { cbn [cmp_step]. rewrite Io, It. reflexivity. }
    cbn zeta in E. set (fs := combine (map tfield (seq 0 (length ts))) ts) in *.
    assert (Lf : length fs = length ts) by (unfold fs; rewrite combine_length, map_length, seq_length; lia).
    rewrite Lf in E.
    assert (Fi : forall i t, nth_error ts i = Some t -> find_field (tfield i) (map (fun f : str * ty => let (x, t) := f in (x, @cmp_step W t)) fs) = Some (i, @cmp_step W t)).
    { intros i t Ht. rewrite find_map. unfold fs. assert (X := @find_tfield _ ts i 0). cbn [Nat.add] in X. rewrite X, Ht by congruence. reflexivity. }
    match type of E with _ = rbind (sequence (map ?F ?l)) _ => destruct (@sequence_map _ _ F l) as (es & Ees & Fes) end.
    { intros i Hi. apply in_seq in Hi. destruct (nth_error ts i) as [t|] eqn:Et; [|apply nth_error_None in Et; lia].
      rewrite (Fi _ _ Et). rewrite Forall_forall in IH. destruct (IH t (nth_error_In _ _ Et) (HExpr [dot_step (HVar 0) i])) as (s & Es & _). rewrite Es.
      cbn [rbind]. eauto. }
    rewrite Ees in E. cbn [rbind] in E.
    assert (Le : length es = length ts) by (rewrite <- (Forall2_len Fes), seq_length; reflexivity).
    set (n := length ts) in *. assert (Ln : 0 < n) by (unfold n; destruct ts; cbn; [congruence|lia]).
    set (body := [let_step es (map (fun i => Some (S i)) (seq 0 n)); cmp_pick W n]) in *.
    exists (Inject [(rhs, Some 0, None)] (env_new (S n + pred n)) body).
    split; [rewrite E; destruct es; [cbn in Le; lia|reflexivity]|].
    intros v e w Hv. apply has_tuple in Hv. destruct Hv as (xs & -> & Hxs).
    destruct (@invoke_injected rhs (S n + pred n) body (VOgma (tuple_ty ts) 0 xs) e w ltac:(lia)) as [Istop Irun].
    split; [|exact Istop]. intros w1 r Hr Tr. apply has_tuple in Tr. destruct Tr as (ys & -> & Hys).
    destruct (have_nth Hxs) as [Lx Nx], (have_nth Hys) as [Ly Ny].
    set (l := VOgma (tuple_ty ts) 0 ys :: env_new (pred (S n + pred n))).
    assert (Ll : length l = S n + pred n) by (unfold l, env_new; cbn; rewrite repeat_length; reflexivity).
    set (c := fun i => order (nth i xs VNil) (nth i ys VNil)).
    destruct (@run_let es n (VOgma (tuple_ty ts) 0 xs) (fun i => VOrd (c i)) (VOgma (tuple_ty ts) 0 ys) (S n + pred n)) with
      (k := n) (i := 0) (e := l) (w := w1) as (l' & R & L' & _ & Hc); try lia; auto.
    { intros i e2 Hi He H0. destruct (Forall2_nth Fes i (nth_seq 0 Hi)) as (h & Hh & Fh). cbn [Nat.add] in Fh. exists h. split; [exact Hh|].
      destruct (nth_error ts i) as [t|] eqn:Et; [|apply nth_error_None in Et; unfold n in Hi; lia]. rewrite (Fi _ _ Et) in Fh.
      destruct (Nx _ _ Et) as (x & Ex & Tx), (Ny _ _ Et) as (y & Ey & Ty).
      rewrite Forall_forall in IH. destruct (IH t (nth_error_In _ _ Et) (HExpr [dot_step (HVar 0) i])) as (s & Es & Rs). rewrite Es in Fh. cbn [rbind] in Fh.
      injection Fh as <-. intro w2. unfold cmp_elem. rewrite resolve_expr. unfold bind at 1. rewrite eval_two. unfold bind at 1.
      rewrite (@invoke_get i _ e2 w2 (tuple_ty ts) 0 xs x eq_refl Ex). cbn [fst snd].
      rewrite (right_gives Rs Tx Ty); [|eapply gives_dot; [apply gives_var; exact H0|exact Ey]].
      unfold c. rewrite (nth_error_nth _ _ _ Ex), (nth_error_nth _ _ _ Ey). reflexivity. }
    refine (Irun w1 _ l Hr eq_refl _ l' _). unfold body. rewrite eval_two. unfold bind. unfold let_step. rewrite invoke_op.
    rewrite map_length, seq_length, Le, Nat.ltb_irrefl. fold n in R. rewrite R. cbn [fst snd].
    rewrite (@run_pick n c _ _ w1 Ln L' Hc). f_equal. f_equal. f_equal. rewrite order_tuple.
    rewrite first_diff_of; [|congruence|intros ->; cbn in Lx; fold n in Lx; lia]. rewrite Lx. reflexivity.
Qed.

End Run.
