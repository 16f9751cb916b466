(** Ops of arithmetic, as runs and as calculations. *)
From Coq Require Import List ZArith Bool Lia Floats.SpecFloat.
From Verif Require Import Model.Base Model.Value Model.Exec Model.Intrinsics Model.Arith
  Spec.ExecSpec Spec.LogicSpec Spec.ArithSpec Proofs.LogicProofs Proofs.DerivedProofs Proofs.FloatProofs.
Import ListNotations.

Section Run.
  Variables (W T : Type) (t : ty) (from : value -> res T) (to : T -> value) (f : T -> T -> T).

  Lemma loop_value v (ds : list (compu W)) : forall a w w' b, loopf from (agg_of f) v ds a w = (w', Ok b) <->
    exists vs xs, each v ds w vs w' /\ Forall2 (fun v x => from v = Ok x) vs xs /\ b = fold_left f xs a.
  Proof.
    induction ds as [|d ds IH]; intros a w w' b; cbn [loopf].
    - split.
      + intro H. injection H as <- <-. exists [], []. split; [constructor|]. split; constructor.
      + intros (vs & xs & H & F & ->). inversion H; subst. inversion F. reflexivity.
    - split.
      + destruct (d v w) as [w1 [x| |]] eqn:Ed; try discriminate. destruct (from x) as [y| |] eqn:Ef; try discriminate.
        cbn [agg_of]. unfold agg_of at 1. intro H. apply IH in H. destruct H as (vs & xs & H & F & ->).
        exists (x :: vs), (y :: xs). split; [econstructor; eauto|]. split; [constructor; auto|reflexivity].
      + intros (vs & xs & H & F & ->). inversion H as [|? ? ? u w1 us w2 Hd He]; subst. inversion F as [|? y ? ys Fy Fs]; subst.
        rewrite Hd, Fy. unfold agg_of at 1. apply IH. exists us, ys. auto.
  Qed.

  Lemma run_value in_ty (args : list (node W)) s o v e w w' u e' : variadic_constrained t from to (agg_of f) in_ty args = Ok (s, o) ->
    (invoke s v e w = (w', Ok (u, e')) <->
     e' = e /\ exists a vs xs, from v = Ok a /\ each v (map (arg_of e) args) w vs w' /\
       Forall2 (fun v x => from v = Ok x) vs xs /\ u = to (fold_left f xs a)).
  Proof.
    intros H. rewrite (constrained_eq _ _ _ _ _ _ v e w H). destruct (from v) as [a|n|].
    2: { split; [discriminate|]. intros (_ & a & _ & _ & E & _). discriminate. }
    2: { split; [discriminate|]. intros (_ & a & _ & _ & E & _). discriminate. }
    pose proof (loop_value v (map (arg_of e) args) a w) as L.
    destruct (loopf from (agg_of f) v (map (arg_of e) args) a w) as [w1 [b|n|]]; cbn [final].
    - split.
      + intros E. injection E as <- <- <-. split; auto. destruct (proj1 (L _ _) eq_refl) as (vs & xs & A & B & ->). exists a, vs, xs. auto.
      + intros (-> & a' & vs & xs & E & A & B & ->). injection E as <-.
        assert (Q : (w1, Ok b) = (w', Ok (fold_left f xs a))) by (apply L; eauto). injection Q as -> ->. reflexivity.
    - split; [discriminate|]. intros (-> & a' & vs & xs & E & A & B & ->). injection E as <-.
      assert (Q : (w1, Err n) = (w', Ok (fold_left f xs a))) by (apply L; eauto). discriminate.
    - split; [discriminate|]. intros (-> & a' & vs & xs & E & A & B & ->). injection E as <-.
      assert (Q : (w1, Panic) = (w', Ok (fold_left f xs a))) by (apply L; eauto). discriminate.
  Qed.
End Run.

Lemma num_run : forall W from to f in_ty (args : list (node W)) s o v e w w' u e', num_op from to f in_ty args = Ok (s, o) ->
  (invoke s v e w = (w', Ok (u, e')) <->
   e' = e /\ exists a vs xs, from v = Ok a /\ each v (map (arg_of e) args) w vs w' /\
     Forall2 (fun v x => from v = Ok x) vs xs /\ u = to (fold_left f xs a)).
Proof. intros W from to f in_ty args s o v e w w' u e' H. exact (run_value W f64 TNum from to f in_ty args s o v e w w' u e' H). Qed.

Lemma num_compiles : forall W from to f in_ty (args : list (node W)) o,
  (exists s, num_op from to f in_ty args = Ok (s, o)) <->
  ty_eqb in_ty TNum = true /\ args <> [] /\ o = TNum /\ forall n, In n args -> exists h, accepted in_ty TNum n h.
Proof. intros W from to f in_ty args o. exact (constrained_compiles TNum from to f in_ty args o). Qed.

Lemma fold_text : forall ss s, fold_left (fun a b => a ++ b) ss s = s ++ concat ss :> str.
Proof. induction ss as [|x ss IH]; intros s; cbn [fold_left concat]; [rewrite app_nil_r; reflexivity|]. rewrite IH, app_assoc. reflexivity. Qed.

Lemma as_str_iff : forall v s, as_str v = Ok s <-> v = VStr s.
Proof. destruct v; cbn; split; congruence. Qed.

Lemma text_run : forall W in_ty (args : list (node W)) s o x e w w' u e', add_str in_ty args = Ok (s, o) ->
  (invoke s (VStr x) e w = (w', Ok (u, e')) <->
   e' = e /\ exists ss, each (VStr x) (map (arg_of e) args) w (map VStr ss) w' /\ u = VStr (x ++ concat ss)).
Proof.
  intros W in_ty args s o x e w w' u e' H.
  rewrite (run_value W str TStr as_str VStr (fun a b => a ++ b) in_ty args s o (VStr x) e w w' u e' H).
  split; intros (-> & A); split; auto.
  - destruct A as (a & vs & xs & E & A & B & ->). injection E as <-. exists xs. rewrite fold_text. split; auto.
    assert (vs = map VStr xs) as <-; auto. clear - B. induction B as [|v y vs ys Hv B IH]; auto. cbn [map]. f_equal; auto.
    apply as_str_iff. exact Hv.
  - destruct A as (ss & A & ->). exists x, (map VStr ss), ss. split; auto. split; auto. split; [|rewrite fold_text; reflexivity].
    clear. induction ss; cbn [map]; constructor; auto.
Qed.

(** ** Calculations *)
Open Scope Z_scope.
Lemma fold_exact : forall f g k, (forall x y a b, exactly x a k -> exactly y b k -> fits (g a b) k -> exactly (f x y) (g a b) k) ->
  forall xs ns x n, exactly x n k -> Forall2 (fun x n => exactly x n k) xs ns -> Forall (fun m => fits m k) (on_the_way g n ns) ->
  exactly (fold_left f xs x) (fold_left g ns n) k.
Proof.
  intros f g k H xs ns x n X F. revert x n X. induction F as [|y m xs ns Y F IH]; intros x n X L; cbn [fold_left on_the_way] in *; auto.
  apply Forall_cons_iff in L. destruct L as [L1 L2]. apply IH; auto.
Qed.

Lemma small_fits : forall n, small n -> fits n 0.
Proof. intros n H. split; [exact H|lia]. Qed.

Lemma sum_exact : forall k xs ns x n, exactly x n k -> Forall2 (fun x n => exactly x n k) xs ns ->
  Forall (fun m => fits m k) (on_the_way Z.add n ns) -> exactly (fold_left f_add xs x) (fold_left Z.add ns n) k.
Proof. intros k. apply fold_exact. intros x y a b. apply add_exact. Qed.

Lemma difference_exact : forall k xs ns x n, exactly x n k -> Forall2 (fun x n => exactly x n k) xs ns ->
  Forall (fun m => fits m k) (on_the_way Z.sub n ns) -> exactly (fold_left f_sub xs x) (fold_left Z.sub ns n) k.
Proof. intros k. apply fold_exact. intros x y a b. apply sub_exact. Qed.

Lemma product_exact : forall xs ns x n, whole x n -> Forall2 whole xs ns ->
  Forall small (on_the_way Z.mul n ns) -> whole (fold_left f_mul xs x) (fold_left Z.mul ns n).
Proof.
  intros xs ns x n X F L. apply (fold_exact f_mul Z.mul 0).
  - intros a b c d A B Ft. exact (mul_exact a b c d 0 0 A B Ft).
  - exact X.
  - exact F.
  - eapply Forall_impl; [|exact L]. intros m. apply small_fits.
Qed.

Lemma whole_ops : forall W from to (f : f64 -> f64 -> f64) (g : Z -> Z -> Z) in_ty (args : list (node W)) s o v e w w' u e',
  (f = f_add /\ g = Z.add) \/ (f = f_sub /\ g = Z.sub) \/ (f = f_mul /\ g = Z.mul) ->
  num_op from to f in_ty args = Ok (s, o) -> invoke s v e w = (w', Ok (u, e')) ->
  forall n vs ns, (exists x, from v = Ok x /\ whole x n) -> each v (map (arg_of e) args) w vs w' ->
  Forall2 (fun v n => exists x, from v = Ok x /\ whole x n) vs ns -> Forall small (on_the_way g n ns) ->
  exists x, u = to x /\ whole x (fold_left g ns n).
Proof.
  intros W from to f g in_ty args s o v e w w' u e' FG H R n vs ns (x & Fx & X) E F L.
  apply (num_run W from to f in_ty args s o v e w w' u e' H) in R. destruct R as (_ & a & vs' & xs & Fa & E' & F' & ->).
  rewrite Fx in Fa. injection Fa as <-.
  assert (vs' = vs) as ->.
  { clear - E E'. revert vs' E'. induction E as [w0|d ds w0 u0 w1 us w2 Hd E IH]; intros vs' E'.
    - inversion E'. reflexivity.
    - inversion E' as [|? ? ? ? wa ? ? Hd' Ed']; subst. rewrite Hd in Hd'. injection Hd' as <- <-. f_equal. auto. }
  assert (FW : Forall2 whole xs ns).
  { clear - F F'. revert ns F. induction F' as [|v y vs ys Hv F' IH]; intros ns F; inversion F as [|? m ? ms (y' & Fy & Wy) Fs]; subst; constructor; auto.
    rewrite Hv in Fy. injection Fy as ->. exact Wy. }
  exists (fold_left f xs x). split; auto. destruct FG as [[-> ->]|[[-> ->]|[-> ->]]].
  - apply sum_exact; auto. eapply Forall_impl; [|exact L]. intros m. apply small_fits.
  - apply difference_exact; auto. eapply Forall_impl; [|exact L]. intros m. apply small_fits.
  - apply product_exact; auto.
Qed.

Lemma each_det : forall W (v : value) ds (w : W) vs w' vs' w2, each v ds w vs w' -> each v ds w vs' w2 -> vs' = vs.
Proof.
  intros W v ds w vs w' vs' w2 E. revert vs' w2. induction E as [w0|d ds w0 u0 w1 us w3 Hd E IH]; intros vs' w2 E'.
  - inversion E'. reflexivity.
  - inversion E' as [|? ? ? ? wa ? ? Hd' Ed']; subst. rewrite Hd in Hd'. injection Hd' as <- <-. f_equal. eauto.
Qed.
Lemma whole_shares : forall W from to in_ty (args : list (node W)) s o v e w w' u e',
  div_num from to in_ty args = Ok (s, o) -> invoke s v e w = (w', Ok (u, e')) ->
  forall n vs ns m, (exists x, from v = Ok x /\ whole x n) -> each v (map (arg_of e) args) w vs w' ->
  Forall2 (fun v n => exists x, from v = Ok x /\ whole x n) vs ns -> shared n ns m ->
  exists x, u = to x /\ whole x m.
Proof.
  intros W from to in_ty args s o v e w w' u e' H R n vs ns m (x & Fx & X) E F L.
  apply (num_run W from to f_div in_ty args s o v e w w' u e' H) in R. destruct R as (_ & a & vs' & xs & Fa & E' & F' & ->).
  rewrite Fx in Fa. injection Fa as <-. rewrite (each_det _ _ _ _ _ _ _ _ E E') in F'. exists (fold_left f_div xs x). split; [auto|].
  clear - F F' L X. revert ns n x X F L. induction F' as [|v y vs ys Hv F' IH]; intros ns n x X F L; inversion F as [|? b ? bs (y' & Fy & Wy) Fs]; subst; cbn [shared fold_left] in *.
  - now subst m.
  - rewrite Hv in Fy. injection Fy as ->. destruct L as (q & -> & NZ & SM & L). apply (IH bs q); auto. apply (div_exact x y' q b 0 0); auto. now apply small_fits.
Qed.

Lemma root_square : forall cbrt powf x a k, exactly x (a * a) (2 * k) -> 0 <= a -> fits a k ->
  exactly (root_num cbrt powf x (f_of_Z 2)) a k.
Proof.
  intros cbrt powf x a k X A Ft. unfold root_num.
  assert (E : f_cmp (SFabs (f_sub (f_of_Z 2) (f_of_Z 2))) tenth = Some Lt) by (vm_compute; reflexivity).
  rewrite E. apply sqrt_exact; auto.
Qed.

Lemma far_off : forall d n, whole d n -> n <> 0 -> f_cmp (SFabs d) tenth = Some Gt.
Proof.
  intros d n H N. assert (T : exists m, tenth = S754_finite false m (-86) /\ Z.pos m < 2 ^ 86 /\ valid_binary 53 1024 tenth = true).
  { eexists. split; [vm_compute; reflexivity|split; vm_compute; reflexivity]. }
  destruct T as (m & E & L & V).
  assert (X : exactly tenth (Z.pos m) (-86)).
  { rewrite E in V |- *. split; [exact V|reflexivity]. }
  assert (Y : exactly (SFabs d) (Z.abs n * 2 ^ 86) (-86)).
  { destruct d as [s|s| |s p e]; unfold whole in H; cbn [exactly SFabs] in H |- *; try contradiction.
    destruct H as (V' & H). split; [destruct s; exact V'|].
    assert (A : Z.pos p * 2 ^ (e - Z.min e 0) = Z.abs n * 2 ^ (0 - Z.min e 0)).
    { rewrite <- (Z.abs_eq (2 ^ (0 - Z.min e 0))) by (apply Z.pow_nonneg; lia). rewrite <- Z.abs_mul, <- H, Z.abs_mul.
      rewrite (Z.abs_eq (2 ^ _)) by (apply Z.pow_nonneg; lia). destruct s; reflexivity. }
    destruct (Z.min_spec e 0) as [[Q M]|[Q M]]; rewrite M in A.
    - rewrite Z.sub_diag, Z.mul_1_r in A. rewrite A. destruct (Z.min_spec e (-86)) as [[Q' M']|[Q' M']]; rewrite M'.
      + rewrite Z.sub_diag, Z.mul_1_r, <- Z.mul_assoc, <- Z.pow_add_r by lia. f_equal. f_equal. lia.
      + rewrite Z.sub_diag, <- Z.mul_assoc, Z.mul_1_r, <- Z.pow_add_r by lia. f_equal. f_equal. lia.
    - replace (Z.min e (-86)) with (-86) by lia. rewrite Z.sub_diag, Z.mul_1_r. replace (0 - 0) with 0 in A by lia. rewrite Z.mul_1_r in A.
      rewrite <- A, <- Z.mul_assoc, <- Z.pow_add_r by lia. f_equal. f_equal. lia. }
  rewrite (cmp_exact _ _ _ _ _ Y X). f_equal. apply Z.compare_gt_iff. nia.
Qed.
Lemma root_cases : forall cbrt powf x,
  root_num cbrt powf x (f_of_Z 3) = cbrt x /\
  (forall y n, whole y n -> 0 <= n -> small n -> n <> 2 -> n <> 3 -> root_num cbrt powf x y = powf x (f_div (f_of_Z 1) y)) /\
  root_num cbrt powf x S754_nan = powf x S754_nan.
Proof.
  intros cbrt powf x. split; [|split].
  - unfold root_num. assert (E : f_cmp (SFabs (f_sub (f_of_Z 3) (f_of_Z 2))) tenth = Some Gt) by (vm_compute; reflexivity).
    assert (E' : f_cmp (SFabs (f_sub (f_of_Z 3) (f_of_Z 3))) tenth = Some Lt) by (vm_compute; reflexivity). rewrite E, E'. reflexivity.
  - intros y n Y P Sm N2 N3. unfold root_num, small in *.
    rewrite (far_off (f_sub y (f_of_Z 2)) (n - 2)), (far_off (f_sub y (f_of_Z 3)) (n - 3)); try lia; [reflexivity| |].
    + apply sub_exact; [exact Y|apply of_Z_exact; unfold small; lia|split; lia].
    + apply sub_exact; [exact Y|apply of_Z_exact; unfold small; lia|split; lia].
  - reflexivity.
Qed.

(** ** The ops *)
Lemma ops_compile : forall W from to op in_ty (args : list (node W)) o, In op [@add_num W; @sub_num W; @mul_num W; @div_num W] ->
  (exists s, op from to in_ty args = Ok (s, o)) <->
  ty_eqb in_ty TNum = true /\ args <> [] /\ o = TNum /\ forall n, In n args -> exists h, accepted in_ty TNum n h.
Proof.
  intros W from to op in_ty args o [<-|[<-|[<-|[<-|[]]]]].
  - exact (num_compiles W from to f_add in_ty args o).
  - exact (num_compiles W from to f_sub in_ty args o).
  - exact (num_compiles W from to f_mul in_ty args o).
  - exact (num_compiles W from to f_div in_ty args o).
Qed.
Lemma ops_run : forall W from to op f in_ty (args : list (node W)) s o v e w w' u e',
  In (op, f) [(@add_num W, f_add); (@sub_num W, f_sub); (@mul_num W, f_mul); (@div_num W, f_div)] -> op from to in_ty args = Ok (s, o) ->
  (invoke s v e w = (w', Ok (u, e')) <->
   e' = e /\ exists a vs xs, from v = Ok a /\ each v (map (arg_of e) args) w vs w' /\
     Forall2 (fun v x => from v = Ok x) vs xs /\ u = to (fold_left f xs a)).
Proof.
  intros W from to op f in_ty args s o v e w w' u e' I H. 
  assert (N : num_op from to f in_ty args = Ok (s, o)) by (destruct I as [Z|[Z|[Z|[Z|[]]]]]; injection Z as <- <-; exact H).
  exact (num_run W from to f in_ty args s o v e w w' u e' N).
Qed.
Lemma ops_whole : forall W from to op (g : Z -> Z -> Z) in_ty (args : list (node W)) s o v e w w' u e',
  In (op, g) [(@add_num W, Z.add); (@sub_num W, Z.sub); (@mul_num W, Z.mul)] ->
  op from to in_ty args = Ok (s, o) -> invoke s v e w = (w', Ok (u, e')) ->
  forall n vs ns, (exists x, from v = Ok x /\ whole x n) -> each v (map (arg_of e) args) w vs w' ->
  Forall2 (fun v n => exists x, from v = Ok x /\ whole x n) vs ns -> Forall small (on_the_way g n ns) ->
  exists x, u = to x /\ whole x (fold_left g ns n).
Proof.
  intros W from to op g in_ty args s o v e w w' u e' I H. destruct I as [Z|[Z|[Z|[]]]]; injection Z as <- <-.
  - apply (whole_ops W from to f_add Z.add in_ty args s o v e w w' u e'); auto.
  - apply (whole_ops W from to f_sub Z.sub in_ty args s o v e w w' u e'); auto.
  - apply (whole_ops W from to f_mul Z.mul in_ty args s o v e w w' u e'); auto.
Qed.
