From Coq Require Import List Permutation Sorted Bool Arith Lia NArith ZArith.
From Verif Require Import Spec.OpsSpec Model.Base Model.Value Model.TableCrate Model.RowPar Model.TableOps
  Spec.TableSpec Spec.ParSpec Spec.SortSpec Proofs.ListLemmas Proofs.TableBasics Proofs.RowParProofs
  Proofs.SortProofs.
Import ListNotations.
Set Implicit Arguments.

Lemma resolve_keys_outcome : forall C (ev : C -> nat -> res value * C) init g sched (h : row) d,
  row_function ev init g -> complete_schedule (S (length d)) sched ->
  match resolve_trow_expr_par ev init sched (h :: d) with
  | Ok l => exists keys, l = VNil :: keys /\ map Ok keys = map g (seq 1 (length d))
  | Err e => exists i, 1 <= i <= length d /\ g i = Err e
  | Panic => exists i, 1 <= i <= length d /\ g i = Panic
  end.
Proof.
  intros C ev init g sched h d Hev HS. unfold resolve_trow_expr_par, rows_len. cbn [length repeat].
  pose proof (@assign_outcome value C ev init g (fun _ v => Ok v) Hev sched VNil (repeat VNil (length d))) as H.
  rewrite repeat_length in H. specialize (H HS).
  assert (J : forall i, job g (fun _ v => Ok v) i = g i).
  { intros i. unfold job. destruct (g i); reflexivity. }
  destruct (par_over_tablerows _ _ _ _) as [l|e|].
  - destruct H as (keys & -> & H). exists keys. split; auto. cbn in H. rewrite H. now apply map_ext.
  - destruct H as ((i & Hi & Ei) & _). apply in_seq in Hi. exists i. rewrite J in Ei. split; auto; lia.
  - destruct H as (i & Hi & Ei). apply in_seq in Hi. exists i. rewrite J in Ei. split; auto; lia.
Qed.

Lemma combine_pairs_map : forall (d : table) (keys : list value) i0, length keys = length d ->
  forall pre : table, length pre = i0 ->
  map (fun iv : nat * value => (nth (fst iv - 1) (pre ++ d) [], snd iv)) (combine (seq (S i0) (length keys)) keys)
  = combine d keys.
Proof.
  induction d as [|r d IH]; intros [|k keys] i0 HL pre HP; cbn in HL; try discriminate; [reflexivity|].
  cbn [length seq combine map fst snd]. f_equal.
  - f_equal. rewrite app_nth2 by lia. replace (S i0 - 1 - length pre) with 0 by lia. reflexivity.
  - rewrite <- (IH keys (S i0) ltac:(lia) (pre ++ [r])); [|rewrite app_length; cbn; lia].
    apply map_ext_in. intros iv _. rewrite <- app_assoc. reflexivity.
Qed.

Lemma last_err_panic : forall A (cmp : A -> A -> res comparison) made,
  last_err cmp made = Panic -> exists a b, In (a, b) made /\ cmp a b = Panic.
Proof.
  intros A cmp made. rewrite last_err_fold.
  assert (G : forall made e, fold_left (last_err_step cmp) made e = Panic ->
     e = Panic \/ exists a b, In (a, b) made /\ cmp a b = Panic).
  { clear made. induction made as [|[a b] m IH]; cbn; auto. intros e H. apply IH in H.
    destruct H as [H|(a' & b' & Hab & Eab)]; [|eauto 6].
    destruct e as [[]| |]; cbn in H; auto; destruct (cmp a b) eqn:E; try congruence; eauto 6. }
  intros H. apply G in H. destruct H as [H|H]; [discriminate|auto].
Qed.



Theorem sortby_outcome : forall C (so : sorter) (ev : C -> nat -> res value * C) init g sched cmp owned (t : table),
  sort_contract so -> rectangular t -> row_function ev init g -> complete_schedule (length t) sched ->
  match sortby_table so ev init sched cmp owned t with
  | Ok t' =>
      exists keys, map Ok keys = map g (seq 1 (length (data t))) /\
        t <> [] /\ header t' = header t /\ Permutation (data t) (data t') /\
        forall c, refines_order cmp keys c ->
          exists out, is_stable_sort (by_key c) (combine (data t) keys) out /\ data t' = map fst out
  | Err e =>
      (exists i, 1 <= i <= length (data t) /\ g i = Err e) \/
      (exists i j a b, 1 <= i <= length (data t) /\ 1 <= j <= length (data t) /\
         g i = Ok a /\ g j = Ok b /\ cmp a b = Err e)
  | Panic =>
      t = [] \/
      (exists i, 1 <= i <= length (data t) /\ g i = Panic) \/
      (exists i j a b, 1 <= i <= length (data t) /\ 1 <= j <= length (data t) /\
         g i = Ok a /\ g j = Ok b /\ cmp a b = Panic)
  end.
Proof.
  intros C so ev init g sched cmp owned t HS HR Hev HC.
  destruct t as [|h d].
  { unfold sortby_table, resolve_trow_expr_par. cbn.
    unfold complete_schedule in HC. cbn in HC. apply Permutation_sym, Permutation_nil in HC.
    apply map_eq_nil in HC. subst. cbn. auto. }
  pose proof (@resolve_keys_outcome C ev init g sched h d Hev HC) as H.
  unfold sortby_table. destruct (resolve_trow_expr_par ev init sched (h :: d)) as [l|e|]; cbn [rbind data]; auto.
  destruct H as (keys & -> & HK).
  assert (HL : length keys = length d).
  { apply (f_equal (@length _)) in HK. rewrite !map_length, seq_length in HK. exact HK. }
  assert (HKi : forall iv, In iv (combine (seq 1 (length keys)) keys) ->
            1 <= fst iv <= length d /\ g (fst iv) = Ok (snd iv)).
  { intros [i v] Hiv. cbn. apply In_nth_error in Hiv. destruct Hiv as (n & Hn).
    rewrite nth_error_combine, nth_error_seq in Hn.
    destruct (Nat.ltb_spec n (length keys)); [|discriminate].
    destruct (nth_error keys n) as [w|] eqn:Ew; [|discriminate]. injection Hn as <- <-.
    split; [lia|]. assert (E : nth_error (map (@Ok value) keys) n = Some (Ok w)) by now rewrite nth_error_map, Ew.
    rewrite HK, nth_error_map, nth_error_seq in E. destruct (Nat.ltb_spec n (length d)); [|lia].
    cbn [option_map] in E. injection E as E. exact E. }
  cbn [length].
  destruct (sort_values so cmp (combine (seq 0 (S (length keys))) (VNil :: keys))) as [sorted|e|] eqn:EV; cbn [rbind].
  - destruct (@reorder_result so owned cmp h d keys sorted HS HR HL EV) as (Hmade & -> & HP).
    set (pairs := combine (seq 1 (length keys)) keys) in *.
    set (f := fun iv : nat * value => (nth (fst iv - 1) d ([] : row), snd iv)).
    assert (Ef : map f pairs = combine d keys) by (apply (@combine_pairs_map d keys 0 HL [] eq_refl)).
    assert (Ed : map fst (combine d keys) = d).
    { clear -HL. revert keys HL. induction d as [|r d IH]; intros [|k keys]; cbn; try discriminate; auto.
      intros [= HL]. f_equal; auto. }
    set (srt := fst (so (nat * value)%type _ pairs)) in *.
    assert (Em : forall l : list (nat * value), map (fun iv => nth (fst iv - 1) d []) l = map fst (map f l)).
    { intros l. rewrite map_map. reflexivity. }
    exists keys. split; auto. split; [discriminate|]. split; [reflexivity|]. split.
    + cbn [data]. rewrite Em. rewrite <- Ed at 1. rewrite <- Ef. now apply Permutation_map, Permutation_map.
    + intros c [HT HA]. exists (map f srt). cbn [data]. split; [|apply Em].
      rewrite <- Ef. apply is_stable_sort_map. cbn [snd f by_key].
      destruct (HS (nat * value)%type (cmp_or_eq (fun a b : nat * value => cmp (snd a) (snd b))) pairs) as (_ & _ & Hin & Hloc).
      destruct (HS (nat * value)%type (fun a b : nat * value => c (snd a) (snd b)) pairs) as (_ & Hst & _).
      assert (HinK : forall iv, In iv pairs -> In (snd iv) keys).
      { intros [i v] Hiv. apply in_combine_r in Hiv. exact Hiv. }
      assert (E : so (nat * value)%type (fun a b : nat * value => c (snd a) (snd b)) pairs =
                  so (nat * value)%type (cmp_or_eq (fun a b : nat * value => cmp (snd a) (snd b))) pairs).
      { apply Hloc. intros a b Hab. destruct (Hmade a b Hab) as (x & Ex). destruct (Hin a b Hab) as [Ha Hb].
        unfold cmp_or_eq. rewrite Ex. eapply HA; eauto. }
      unfold srt. rewrite <- E. apply Hst.
      destruct HT as (R & S & T). repeat split; intros.
      * apply R; auto.
      * apply S; auto.
      * eapply (T (snd a) (snd b) (snd c0)); auto.
  - cbn in EV. right.
    destruct (HS (nat * value)%type (cmp_or_eq (fun a b : nat * value => cmp (snd a) (snd b))) (combine (seq 1 (length keys)) keys)) as (_ & _ & Hin & _).
    destruct (so (nat * value)%type _ _) as [srt made] eqn:Eso. cbn in EV, Hin.
    destruct (last_err _ made) as [[]|x|] eqn:El; cbn in EV; try discriminate. injection EV as ->.
    apply last_err_err in El. destruct El as (a & b & Hab & Eab). destruct (Hin a b Hab) as [Ha Hb].
    apply HKi in Ha. apply HKi in Hb. exists (fst a), (fst b), (snd a), (snd b). tauto.
  - cbn in EV. right; right.
    destruct (HS (nat * value)%type (cmp_or_eq (fun a b : nat * value => cmp (snd a) (snd b))) (combine (seq 1 (length keys)) keys)) as (_ & _ & Hin & _).
    destruct (so (nat * value)%type _ _) as [srt made] eqn:Eso. cbn in EV, Hin.
    destruct (last_err _ made) as [[]|x|] eqn:El; cbn in EV; try discriminate.
    apply last_err_panic in El. destruct El as (a & b & Hab & Eab). destruct (Hin a b Hab) as [Ha Hb].
    apply HKi in Ha. apply HKi in Hb. exists (fst a), (fst b), (snd a), (snd b). tauto.
Qed.
