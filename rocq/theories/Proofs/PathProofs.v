From Coq Require Import List Arith Lia NArith ZArith Bool.
From Verif Require Import Model.Base Model.SavePath Spec.PathSpec.
Import ListNotations.



Lemma components_shape : forall p, exists cs, Forall plain cs /\
  components p = if is_absolute p then RootDir :: cs else cs.
Proof.
  assert (B : forall s, Forall plain (body_component s)).
  { intros s. unfold body_component. destruct (_ || _); [constructor|]. destruct (str_eqb s dotdot); repeat constructor; discriminate. }
  assert (F : forall l, Forall plain (flat_map body_component l)).
  { induction l; cbn; [constructor|]. apply Forall_app. auto. }
  intros p. unfold components. destruct (is_absolute p).
  - eauto.
  - destruct (split_slash p) as [|s ss]; [eauto|]. exists ((if str_eqb s dot then [CurDir] else body_component s) ++ flat_map body_component ss).
    split; auto. apply Forall_app. split; auto. destruct (str_eqb s dot); auto. repeat constructor. discriminate.
Qed.

Lemma body_relative : forall p cs, components p = cs -> is_absolute p = false -> Forall plain cs.
Proof. intros p cs <- H. destruct (components_shape p) as (cs & HF & ->). now rewrite H. Qed.

Definition net (cs : list component) : Z := Z.of_nat (normals cs) - Z.of_nat (parents cs).

Lemma net_cons : forall c cs, plain c -> net (c :: cs) = (component_weight c + net cs)%Z.
Proof. intros c cs H. unfold net, normals, parents. destruct c; cbn [filter length component_weight]; try congruence; lia. Qed.

Lemma net_bound : forall cs, (Z.abs (net cs) <= Z.of_nat (length cs))%Z.
Proof.
  induction cs as [|c cs IH]; [cbn; lia|]. unfold net, normals, parents in *. destruct c; cbn [filter length]; lia.
Qed.

Lemma i32_add_in : forall ck a b, (i32_min <= a + b <= i32_max)%Z -> i32_add ck a b = Ok (a + b)%Z.
Proof.
  intros ck a b H. unfold i32_add. rewrite (proj2 (Z.leb_le _ _)), (proj2 (Z.leb_le _ _)) by lia. reflexivity.
Qed.

Lemma weigh_small : forall ck cs x, Forall plain cs ->
  (Z.abs x + Z.of_nat (length cs) <= 2147483647)%Z -> weigh ck x cs = Ok (x + net cs)%Z.
Proof.
  intros ck. induction cs as [|c cs IH]; intros x HF HB; cbn [weigh].
  - f_equal. cbn. lia.
  - inversion HF; subst. rewrite net_cons by auto. cbn [length] in HB.
    assert (W : (Z.abs (component_weight c) <= 1)%Z) by (destruct c; cbn; try lia; exfalso; now apply H1).
    rewrite i32_add_in by (unfold i32_min, i32_max; lia). cbn [rbind]. rewrite IH; auto; [f_equal; lia|lia].
Qed.

(** Unchecked: the weight modulo 2^32. *)
Definition wrap (z : Z) : Z := ((z - i32_min) mod 4294967296 + i32_min)%Z.

Lemma wrap_id : forall z, (i32_min <= z <= i32_max)%Z -> wrap z = z.
Proof. intros z H. unfold wrap, i32_min, i32_max in *. rewrite Z.mod_small; lia. Qed.

Lemma wrap_add : forall a b, wrap (wrap a + b) = wrap (a + b).
Proof.
  intros a b. unfold wrap. f_equal. replace ((a - i32_min) mod 4294967296 + i32_min + b - i32_min)%Z
    with ((a - i32_min) mod 4294967296 + b)%Z by lia. rewrite Zplus_mod_idemp_l. f_equal. lia.
Qed.

Lemma i32_add_wrap : forall a b, i32_add false a b = Ok (wrap (a + b)).
Proof.
  intros a b. unfold i32_add. destruct ((_ <=? _)%Z && _) eqn:E; [|reflexivity].
  apply andb_true_iff in E as [E1 E2]. apply Z.leb_le in E1, E2. now rewrite wrap_id by lia.
Qed.

Lemma weigh_wrap : forall cs x, Forall plain cs -> weigh false (wrap x) cs = Ok (wrap (x + net cs)).
Proof.
  induction cs as [|c cs IH]; intros x HF; cbn [weigh].
  - f_equal. cbn. now rewrite Z.add_0_r.
  - inversion HF; subst. rewrite i32_add_wrap. cbn [rbind]. rewrite wrap_add, IH by auto.
    rewrite net_cons by auto. do 2 f_equal. lia.
Qed.



(** A relative path is accepted exactly if it names more directories and files than it leaves. *)
Theorem save_relative : forall ck root wd p q, q = full_path root wd p -> is_absolute q = false ->
  (Z.of_nat (length (components q)) <= 2147483647)%Z ->
  save_path ck root wd p = if Nat.ltb (parents (components q)) (normals (components q)) then Ok q else Err 0.
Proof.
  intros ck root wd p q -> HA HL. unfold save_path. fold (full_path root wd p).
  set (q := full_path root wd p) in *.
  rewrite weigh_small; [|exact (body_relative q _ eq_refl HA)|lia]. cbn [rbind].
  unfold net. destruct (Z.leb_spec (0 + (Z.of_nat (normals (components q)) - Z.of_nat (parents (components q)))) 0);
    destruct (Nat.ltb_spec (parents (components q)) (normals (components q))); auto; lia.
Qed.

(** An absolute path in a release build is accepted exactly if it goes up more often than down. *)
Theorem save_absolute : forall root wd p q, q = full_path root wd p -> is_absolute q = true ->
  (Z.of_nat (length (components q)) <= 2147483647)%Z ->
  save_path false root wd p = if Nat.ltb (normals (components q)) (parents (components q)) then Ok q else Err 0.
Proof.
  intros root wd p q -> HA HL. unfold save_path. fold (full_path root wd p). set (q := full_path root wd p) in *.
  destruct (components_shape q) as (cs & HF & E). rewrite HA in E. rewrite E in *. cbn [weigh component_weight].
  rewrite i32_add_wrap. cbn [rbind]. rewrite weigh_wrap by auto. cbn [rbind]. rewrite Z.add_0_l.
  assert (P : parents (RootDir :: cs) = parents cs) by reflexivity.
  assert (N : normals (RootDir :: cs) = normals cs) by reflexivity. rewrite P, N.
  pose proof (net_bound cs) as B. cbn [length] in HL. unfold net in *.
  set (k := (Z.of_nat (normals cs) - Z.of_nat (parents cs))%Z) in *.
  destruct (Nat.ltb_spec (normals cs) (parents cs)) as [H|H].
  - assert (W : wrap (i32_min + k) = (i32_max + 1 + k)%Z).
    { unfold wrap, i32_min, i32_max in *. replace (-2147483648 + k - -2147483648)%Z with k by lia.
      replace (k mod 4294967296)%Z with (k + 4294967296)%Z; [lia|].
      apply (Z.mod_unique k 4294967296 (-1)); lia. }
    rewrite W. destruct (Z.leb_spec (i32_max + 1 + k) 0); auto. unfold i32_max in *. lia.
  - rewrite wrap_id by (unfold i32_min, i32_max; lia). destruct (Z.leb_spec (i32_min + k) 0); auto. unfold i32_min in *. lia.
Qed.

(** An absolute path in a debug build is never accepted. *)
Theorem save_absolute_checked : forall root wd p q, q = full_path root wd p -> is_absolute q = true ->
  (Z.of_nat (length (components q)) <= 2147483647)%Z ->
  forall r, save_path true root wd p <> Ok r.
Proof.
  intros root wd p q -> HA HL r. unfold save_path. fold (full_path root wd p). set (q := full_path root wd p) in *.
  destruct (components_shape q) as (cs & HF & E). rewrite HA in E. rewrite E in *. cbn [weigh component_weight].
  rewrite i32_add_in by (unfold i32_min, i32_max; lia). cbn [rbind length] in *. rewrite Z.add_0_l.
  assert (G : forall cs x, Forall plain cs -> (x + Z.of_nat (length cs) <= 0)%Z ->
    match weigh true x cs with Ok y => (y <= 0)%Z | Err _ => False | Panic => True end).
  { clear. induction cs as [|c cs IH]; intros x HF HB; cbn [weigh]; [cbn in HB; lia|]. inversion HF; subst.
    cbn [length] in HB. unfold i32_add.
    assert (W : (component_weight c <= 1)%Z) by (destruct c; cbn; unfold i32_min; lia).
    destruct ((_ <=? _)%Z && _); cbn [rbind]; auto. apply IH; auto. lia. }
  specialize (G cs i32_min HF). unfold i32_min in G at 1. specialize (G ltac:(lia)).
  destruct (weigh true i32_min cs) as [y|e|]; cbn [rbind]; try discriminate.
  destruct (Z.leb_spec y 0); [discriminate|lia].
Qed.

(** Walking. *)
Lemma walk_inside : forall cs d e, Forall plain cs ->
  (forall a b, cs = a ++ b -> parents a <= length e + normals a) -> below d (walk (d ++ e) cs).
Proof.
  induction cs as [|c cs IH]; intros d e HF HA.
  - exists e. reflexivity.
  - inversion HF; subst. destruct c as [| | |n]; [now exfalso; apply H1| | |].
    + apply IH; auto. intros a b ->. specialize (HA (CurDir :: a) b eq_refl). exact HA.
    + pose proof (HA [ParentDir] cs eq_refl) as H0. cbn in H0.
      cbn [walk fold_left step_to]. rewrite removelast_app by (intros ->; cbn in H0; lia).
      apply IH; auto. intros a b ->. specialize (HA (ParentDir :: a) b eq_refl).
      unfold parents, normals in *. cbn [filter length] in HA.
      destruct (@exists_last _ e) as (e' & x & ->); [intros ->; cbn in H0; lia|].
      rewrite removelast_app, app_nil_r by discriminate. rewrite app_length in HA. cbn in HA |- *. lia.
    + cbn [walk fold_left step_to]. rewrite <- app_assoc. apply IH; auto. intros a b ->.
      specialize (HA (Normal n :: a) b eq_refl). unfold parents, normals in *. cbn [filter length] in HA.
      rewrite app_length. cbn. lia.
Qed.

Theorem never_above_inside : forall d cs, Forall plain cs -> never_above cs -> below d (walk d cs).
Proof.
  intros d cs HF HA. rewrite <- (app_nil_r d) at 2. apply walk_inside; auto.
Qed.

Theorem save_inside : forall p d, is_absolute p = false -> never_above (components p) -> below d (walk d (components p)).
Proof. intros p d H HA. apply never_above_inside; auto. exact (body_relative p _ eq_refl H). Qed.

Lemma strip_prefix_spec : forall pre l r, strip_prefix pre l = Some r <-> l = pre ++ r.
Proof.
  induction pre as [|x pre IH]; intros l r; cbn [strip_prefix app].
  - split; congruence.
  - destruct l as [|y l]; [split; discriminate|]. destruct (str_eqb_spec x y) as [->|H].
    + rewrite IH. split; congruence.
    + split; [discriminate|congruence].
Qed.

Theorem scrub_exact : forall canon root wd p rel, scrub_filepath canon root wd p = Ok rel <->
  exists r, canon root = Some r /\ canon (full_path root wd p) = Some (r ++ rel).
Proof.
  intros canon root wd p rel. unfold scrub_filepath. fold (full_path root wd p).
  destruct (canon (full_path root wd p)) as [w|]; [|split; [discriminate|intros (r & _ & H); discriminate]].
  destruct (canon root) as [r|]; [|split; [discriminate|intros (r & H & _); discriminate]].
  destruct (strip_prefix r w) as [x|] eqn:E.
  - apply strip_prefix_spec in E as ->. split.
    + intros [= ->]. eauto.
    + intros (r' & [= <-] & [= H]). apply app_inv_head in H. congruence.
  - split; [discriminate|]. intros (r' & [= <-] & [= ->]).
    assert (strip_prefix r (r ++ rel) = Some rel) by now apply strip_prefix_spec. congruence.
Qed.
