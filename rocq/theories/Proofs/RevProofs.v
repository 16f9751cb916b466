From Coq Require Import String List Bool Arith Lia NArith ZArith.
From Verif Require Import Spec.OpsSpec Model.Base Model.Value Model.TableCrate Model.RowPar Model.TableOps
  Spec.TableSpec Spec.ColSpec Spec.RunSpec Proofs.ListLemmas Proofs.TableBasics Proofs.ColLemmas.
Import ListNotations.
Set Implicit Arguments.

Lemma rev_table_invol : forall cols (t : table), rev_table cols (rev_table cols t) = t.
Proof.
  intros [] t; cbn.
  - unfold reverse_cols. rewrite map_map. rewrite <- (map_id t) at 2. apply map_ext. apply rev_involutive.
  - destruct t as [|h d]; cbn; auto. now rewrite rev_involutive.
Qed.

Lemma rev_table_rows : forall (t : table), header (rev_table false t) = header t /\ data (rev_table false t) = rev (data t).
Proof. intros [|h d]; cbn; auto. Qed.

Lemma rev_table_cols : forall (t : table), rev_table true t = map (@rev ent) t.
Proof. reflexivity. Qed.

(** ** dedup *)

Lemma dedup_from_ok : forall A (same : A -> A -> res bool) (P : A -> A -> Prop) (Q : A -> Prop),
  (forall a b, Q a -> Q b -> same a b = Ok true -> P a b) ->
  (forall a b, Q a -> Q b -> same a b = Ok false -> ~ P a b) ->
  forall l last out, Q last -> (forall x, In x l -> Q x) -> dedup_by_from same last l = Ok out ->
  exists run rest (runs : list (A * list A)), l = run ++ rest /\ (forall x, In x run -> P x last) /\
    rest = flat_map (fun r => fst r :: snd r) runs /\ out = map fst runs /\
    (forall r x, In r runs -> In x (snd r) -> P x (fst r)) /\
    (forall pre a b post, last :: out = pre ++ a :: b :: post -> ~ P b a).
Proof.
  intros A same P Q HT HF. induction l as [|a l IH]; intros last out Ql QA H; cbn in H.
  - injection H as <-. exists [], [], []. repeat split; cbn; auto; try easy.
    intros pre x y post E. destruct pre as [|? [|? ?]]; discriminate.
  - assert (Qa : Q a) by (apply QA; cbn; auto).
    assert (Q2 : forall x, In x l -> Q x) by (intros; apply QA; cbn; auto).
    destruct (same a last) as [b|e|] eqn:Es; cbn in H; try discriminate. destruct b.
    + destruct (IH last out Ql Q2 H) as (run & rest & runs & -> & H1 & H2 & H3 & H4 & H5).
      exists (a :: run), rest, runs. repeat split; auto.
      intros x [<-|Hx]; auto.
    + destruct (dedup_by_from same a l) as [r|e|] eqn:Er; cbn in H; try discriminate. injection H as <-.
      destruct (IH a r Qa Q2 Er) as (run & rest & runs & -> & H1 & -> & -> & H4 & H5).
      exists [], (a :: run ++ flat_map (fun r => fst r :: snd r) runs), ((a, run) :: runs).
      repeat split; cbn; auto; try easy.
      * intros r x [<-|Hr] Hx; cbn in *; [auto|eapply H4; eauto].
      * intros pre x y post E. destruct pre as [|p pre].
        { cbn in E. injection E as <- <- _. now apply HF. }
        { cbn in E. injection E as _ E. eapply H5; eauto. }
Qed.

Lemma dedup_by_ok : forall A (same : A -> A -> res bool) (P : A -> A -> Prop) (Q : A -> Prop),
  (forall a b, Q a -> Q b -> same a b = Ok true -> P a b) ->
  (forall a b, Q a -> Q b -> same a b = Ok false -> ~ P a b) ->
  forall l out, (forall x, In x l -> Q x) -> dedup_by same l = Ok out -> is_dedup P l out.
Proof.
  intros A same P Q HT HF [|a l] out HQ H; cbn in H.
  - injection H as <-. exists []. repeat split; auto; try easy. intros []; discriminate.
  - destruct (dedup_by_from same a l) as [r|e|] eqn:Er; cbn in H; try discriminate. injection H as <-.
    assert (Qa : Q a) by (apply HQ; cbn; auto).
    assert (Q2 : forall x, In x l -> Q x) by (intros; apply HQ; cbn; auto).
    destruct (@dedup_from_ok _ same P Q HT HF l a r Qa Q2 Er) as (run & rest & runs & -> & H1 & -> & -> & H4 & H5).
    exists ((a, run) :: runs). repeat split; cbn; auto.
    intros r x [<-|Hr] Hx; cbn in *; [auto|eapply H4; eauto].
Qed.

Lemma dedup_chars_by : forall s last,
  Ok (dedup_chars (Some last) s) = dedup_by_from (fun a b => Ok (N.eqb a b)) last s.
Proof.
  induction s as [|c s IH]; intros last; cbn; auto.
  destruct (N.eqb c last); auto. rewrite <- IH. reflexivity.
Qed.

Theorem dedup_str_correct : forall s, is_dedup eq s (dedup_str s).
Proof.
  intros s. apply (@dedup_by_ok N (fun a b => Ok (N.eqb a b)) eq (fun _ => True)); auto.
  - intros a b _ _ [= H]. now apply N.eqb_eq.
  - intros a b _ _ [= H]. now apply N.eqb_neq.
  - destruct s as [|c s]; cbn; auto. rewrite <- dedup_chars_by. reflexivity.
Qed.


Lemma same_on_ok : forall cols (a b : row), (forall c, In c cols -> c < length a /\ c < length b) ->
  exists r, same_on cols a b = Ok r /\ (r = true <-> agree_on cols a b).
Proof.
  induction cols as [|c cols IH]; intros a b H; cbn.
  - exists true. split; auto. split; auto. intros _ c [].
  - destruct (H c (or_introl eq_refl)) as [Ha Hb].
    rewrite (@nth_error_nth_lt _ a c ENil Ha), (@nth_error_nth_lt _ b c ENil Hb).
    destruct (ent_eqb (nth c a ENil) (nth c b ENil)) eqn:E.
    + destruct (IH a b) as (r & -> & Hr). { intros; apply H; cbn; auto. }
      exists r. split; auto. rewrite Hr. split.
      * intros G x [<-|Hx]; [exact E|auto].
      * intros G x Hx. apply G; cbn; auto.
    + exists false. split; auto. split; [discriminate|]. intros G.
      specialize (G c (or_introl eq_refl)). unfold cell_at in G. congruence.
Qed.

Lemma dedup_from_total : forall A (same : A -> A -> res bool) (Q : A -> Prop),
  (forall a b, Q a -> Q b -> exists r, same a b = Ok r) ->
  forall l last, Q last -> (forall x, In x l -> Q x) ->
  exists out, dedup_by_from same last l = Ok out /\ forall x, In x out -> In x l.
Proof.
  intros A same Q HQ. induction l as [|a l IH]; intros last Ql HA; cbn.
  - exists []. auto.
  - destruct (HQ a last) as (r & ->); auto. { apply HA; cbn; auto. } cbn. destruct r.
    + destruct (IH last) as (out & E & HI); auto. { intros; apply HA; cbn; auto. }
      exists out. split; auto.
    + destruct (IH a) as (out & E & HI). { apply HA; cbn; auto. } { intros; apply HA; cbn; auto. }
      rewrite E. cbn. exists (a :: out). split; auto. intros x [<-|Hx]; cbn; auto.
Qed.

Theorem dedup_table_correct : forall names (t : table), rectangular t ->
  match dedup_table names t with
  | Ok t' => exists cols,
      match names with
      | Some ns => Forall2 (column_named t) ns cols
      | None => cols = seq 0 (cols_len t)
      end /\ is_dedup (agree_on cols) t t'
  | Err _ => exists ns n, names = Some ns /\ In n ns /\ no_column_named t n
  | Panic => False
  end.
Proof.
  intros names t HR. unfold dedup_table.
  assert (G : forall cols, (forall c, In c cols -> c < cols_len t) ->
    exists r, dedup_by (same_on cols) t = Ok r /\ is_dedup (agree_on cols) t r /\ table_from r = r).
  { intros cols HC.
    assert (HQ : forall a b, length a = cols_len t -> length b = cols_len t -> exists r, same_on cols a b = Ok r /\ (r = true <-> agree_on cols a b)).
    { intros a b Ha Hb. apply same_on_ok. intros c Hc. rewrite Ha, Hb. auto. }
    assert (HW := rectangular_width HR).
    assert (exists r, dedup_by (same_on cols) t = Ok r /\ forall x, In x r -> In x t) as (r & Er & Hr).
    { destruct t as [|h d]; [exists []; auto|]. cbn [dedup_by].
      destruct (@dedup_from_total _ (same_on cols) (fun a => length a = cols_len (h :: d))) with (l := d) (last := h) as (out & E & HI).
      - intros a b Ha Hb. destruct (HQ a b Ha Hb) as (r & E & _). eauto.
      - reflexivity.
      - intros x Hx. apply HW. cbn; auto.
      - rewrite E. cbn. exists (h :: out). split; auto. intros x [<-|Hx]; cbn; auto. }
    exists r. split; auto. split.
    - apply (@dedup_by_ok row (same_on cols) (agree_on cols) (fun a => length a = cols_len t)); auto.
      + intros a b Ha Hb E. destruct (HQ a b Ha Hb) as (x & Ex & Hx). apply Hx. congruence.
      + intros a b Ha Hb E HA. destruct (HQ a b Ha Hb) as (x & Ex & Hx). apply Hx in HA. congruence.
    - apply table_from_rect. eapply rectangular_sub; eauto. }
  destruct names as [ns|]; cbn [rbind].
  - pose proof (resolve_indices_spec ns t) as HI.
    destruct (resolve_indices ns t) as [cols|e|]; cbn [rbind].
    + destruct (G cols) as (r & -> & HD & HT).
      { clear -HI. induction HI; cbn; [easy|]. intros c [<-|H1]; auto. eapply column_named_width; eauto. }
      cbn. rewrite HT. exists cols; auto.
    + destruct HI as (n & A & B). exists ns, n. auto.
    + exact HI.
  - destruct (G (seq 0 (cols_len t))) as (r & -> & HD & HT).
    { intros c Hc. apply in_seq in Hc. lia. }
    cbn. rewrite HT. eexists; split; [reflexivity|exact HD].
Qed.

Lemma rev_str_correct : forall s, rev_str (rev_str s) = s /\ forall i, i < length s ->
  nth_error (rev_str s) i = nth_error s (length s - 1 - i).
Proof.
  intros s. unfold rev_str. split; [apply rev_involutive|].
  intros i Hi. rewrite (@nth_error_nth_lt _ (rev s) i 0%N) by (rewrite rev_length; auto).
  rewrite (@nth_error_nth_lt _ s (length s - 1 - i) 0%N) by lia.
  f_equal. rewrite rev_nth by auto. f_equal. lia.
Qed.
