From Coq Require Import String List NArith Bool Arith Lia.
From Verif Require Import Model.Base Model.Value Model.Ast Model.Registry Model.AstGraph Model.TyBuild Model.Locals Proofs.HaltLex Proofs.LocalsProofs.
Import ListNotations.

Lemma flt_le : forall A (f f' : A -> bool) l, (forall x, In x l -> f' x = true -> f x = true) ->
  length (filter f' l) <= length (filter f l).
Proof.
  induction l as [|x l IH]; intros H; cbn; [lia|].
  assert (IL: length (filter f' l) <= length (filter f l)) by (apply IH; intros; apply H; cbn; auto).
  destruct (f' x) eqn:E'; destruct (f x) eqn:E; cbn; try lia.
  rewrite (H x) in E; cbn; auto; discriminate.
Qed.
Lemma flt_lt : forall A (f f' : A -> bool) l, (forall x, In x l -> f' x = true -> f x = true) ->
  (exists x, In x l /\ f x = true /\ f' x = false) -> length (filter f' l) < length (filter f l).
Proof.
  induction l as [|x l IH]; intros H (y & I & F & F'); [destruct I|]. cbn.
  assert (HL: forall z, In z l -> f' z = true -> f z = true) by (intros; apply H; cbn; auto).
  destruct I as [->|I].
  - rewrite F, F'. cbn. pose proof (flt_le A f f' l HL). lia.
  - assert (IL: length (filter f' l) < length (filter f l)) by (apply IH; eauto).
    destruct (f' x) eqn:E'; destruct (f x) eqn:E; cbn; try lia. rewrite (H x) in E; cbn; auto; discriminate.
Qed.

Section Locals.
Variable order : lmap -> lmap.
Variable names : list str.

Definition named (lg : lgraph) (p : str * nat) : bool :=
  match nth_error (lg_nodes lg) (snd p) with
  | Some v => match alookup str_eqb (fst p) (va_map v) with Some l => Nat.eqb (lo_def l) (snd p) | None => false end
  | None => false
  end.
Definition spots (lg : lgraph) : list (str * nat) := list_prod names (seq 0 (length (lg_nodes lg))).
Definition unnamed_count (lg : lgraph) : nat := length (filter (fun p => negb (named lg p)) (spots lg)).
Definition unsealed_count (lg : lgraph) : nat := length (filter (fun v => negb (va_sealed v)) (lg_nodes lg)).
Definition lgv (lg : lgraph) : list nat := [unnamed_count lg; unsealed_count lg; length (lg_edges lg)].

(** Nothing but names is changed, and nothing loses its name. *)
Definition lkeep (lg lg' : lgraph) : Prop :=
  map va_sealed (lg_nodes lg') = map va_sealed (lg_nodes lg) /\ lg_edges lg' = lg_edges lg /\ forall p, named lg p = true -> named lg' p = true.
Lemma lkeep_refl : forall lg, lkeep lg lg.
Proof. intros lg. repeat split; auto. Qed.
Lemma lkeep_trans : forall a b c, lkeep a b -> lkeep b c -> lkeep a c.
Proof. intros a b c (A1 & A2 & A3) (B1 & B2 & B3). split; [congruence|]. split; [congruence|auto]. Qed.
Lemma lkeep_length : forall a b, lkeep a b -> length (lg_nodes b) = length (lg_nodes a).
Proof. intros a b (H & _). rewrite <- (map_length va_sealed (lg_nodes b)), <- (map_length va_sealed (lg_nodes a)). now rewrite H. Qed.

Lemma put_nth : forall l n v m, nth_error (put l n v) m = if Nat.eqb n m then (if m <? length l then Some v else None) else nth_error l m.
Proof.
  induction l as [|x l IH]; intros n v m.
  - cbn. destruct (Nat.eqb_spec n m) as [->|]; [destruct m; reflexivity|destruct m; reflexivity].
  - destruct n as [|n]; destruct m as [|m]; cbn [put nth_error Nat.eqb]; auto. rewrite IH. destruct (Nat.eqb n m); auto.
Qed.
Lemma put_sealed : forall l n v w, nth_error l n = Some w -> va_sealed v = va_sealed w -> map va_sealed (put l n v) = map va_sealed l.
Proof. induction l as [|x l IH]; intros [|n] v w E S; cbn in *; try discriminate; [injection E as ->; congruence|]. f_equal. eauto. Qed.
Lemma on_node_keep : forall lg n f lg', on_node lg n f = Ok lg' -> (forall v, va_sealed (f v) = va_sealed v) ->
  (forall v x l, nth_error (lg_nodes lg) n = Some v -> alookup str_eqb x (va_map v) = Some l -> lo_def l = n ->
     exists l', alookup str_eqb x (va_map (f v)) = Some l' /\ lo_def l' = n) -> lkeep lg lg'.
Proof.
  intros lg n f lg' H S K. unfold on_node in H. destruct (nth_error (lg_nodes lg) n) as [v|] eqn:E; [|discriminate]. injection H as <-.
  split; [cbn; eapply put_sealed; eauto|]. split; [reflexivity|]. intros [x m] N. unfold named in *. cbn [fst snd lg_nodes] in *. rewrite put_nth.
  destruct (Nat.eqb_spec n m) as [<-|NE]; [|exact N].
  assert (L : n < length (lg_nodes lg)) by (apply nth_error_Some; congruence). apply Nat.ltb_lt in L. rewrite L. rewrite E in N.
  destruct (alookup str_eqb x (va_map v)) as [l|] eqn:El; [|discriminate]. apply Nat.eqb_eq in N.
  destruct (K v x l eq_refl El N) as (l' & E' & D'). rewrite E'. now apply Nat.eqb_eq.
Qed.
Lemma accretes_own : forall t l to x w, lk x to = Some w -> lo_def w = t -> lk x (fold_left (accrete1 t) l to) = Some w.
Proof.
  induction l as [|kv l IH]; intros to x w E D; [exact E|]. cbn [fold_left]. apply IH; [|exact D]. rewrite accrete1_lk, E.
  destruct (str_eqb (fst kv) x); [|reflexivity]. unfold merged. apply Nat.eqb_eq in D. now rewrite D.
Qed.
Lemma accrete_keep : forall lg a b lg', accrete order lg a b = Ok lg' -> lkeep lg lg'.
Proof.
  intros lg a b lg' H. unfold accrete in H. destruct (nth_error (lg_nodes lg) a) as [f|]; [|discriminate].
  eapply on_node_keep; [exact H|reflexivity|]. intros v x l _ E D. exists l. split; [|exact D]. cbn [va_map]. unfold accrete_map. now apply accretes_own.
Qed.
Lemma flow_loop_keep : forall fuel st lg lg', flow_loop order fuel lg st = Ok lg' -> lkeep lg lg'.
Proof.
  induction fuel as [|fuel IH]; intros [|[a b] st] lg lg' H; cbn [flow_loop] in H; try discriminate; try (injection H as <-; apply lkeep_refl).
  destruct (accrete order lg a b) as [lg1| |] eqn:E; cbn [rbind] in H; try discriminate. eapply lkeep_trans; [eapply accrete_keep; eauto|]. eapply IH. exact H.
Qed.
Lemma insert_keep : forall lg n x l lg', insert_at lg n x l = Ok lg' -> lo_def l = n -> lkeep lg lg' /\ named lg' (x, n) = true.
Proof.
  intros lg n x l lg' H D. split.
  - eapply on_node_keep; [exact H|reflexivity|]. intros v y l0 _ E D0. cbn [va_map]. rewrite lk_ins. destruct (str_eqb x y); eauto.
  - unfold insert_at, on_node in H. destruct (nth_error (lg_nodes lg) n) as [v|] eqn:E; [|discriminate]. injection H as <-.
    unfold named. cbn [fst snd lg_nodes]. rewrite put_nth, Nat.eqb_refl.
    assert (L : n < length (lg_nodes lg)) by (apply nth_error_Some; congruence). apply Nat.ltb_lt in L. rewrite L. cbn [va_map]. rewrite lk_ins.
    destruct (str_eqb_spec x x); [|congruence]. now apply Nat.eqb_eq.
Qed.
Lemma push_keep : forall lg k e, lkeep lg (push_local lg k e).
Proof. intros. repeat split; auto. Qed.
Lemma push_named : forall lg k e p, named (push_local lg k e) p = named lg p.
Proof. reflexivity. Qed.

Definition new_name (c : lchg) : option (str * nat) :=
  match c with NewVar x _ n => Some (x, n) | NewLazy x _ n => Some (x, n) | _ => None end.
Lemma new_keep : forall lg c b lg' p, apply_chg order lg c = Ok (b, lg') -> new_name c = Some p -> lkeep lg lg' /\ named lg' p = true.
Proof.
  intros lg c b lg' p H N. destruct c as [x t n|x to n| | |]; try discriminate; injection N as <-; cbn [apply_chg] in H.
  - unfold add_new_var in H. destruct (insert_at _ n x _) as [lg1| |] eqn:E; cbn [rbind] in H; try discriminate.
    destruct (flow order lg1 n) as [lg2| |] eqn:F; cbn [rbind] in H; try discriminate. injection H as <- <-.
    apply insert_keep in E; [|reflexivity]. destruct E as (K & M). apply flow_loop_keep in F. split.
    + eapply lkeep_trans; [|exact F]. eapply lkeep_trans; [|exact K]. apply push_keep.
    + destruct F as (_ & _ & F). auto.
  - unfold add_new_lazy in H. destruct (insert_at _ n x _) as [lg1| |] eqn:E; cbn [rbind] in H; try discriminate.
    destruct (flow order lg1 n) as [lg2| |] eqn:F; cbn [rbind] in H; try discriminate. injection H as <- <-.
    apply insert_keep in E; [|reflexivity]. destruct E as (K & M). apply flow_loop_keep in F. split.
    + eapply lkeep_trans; [|exact F]. eapply lkeep_trans; [|exact K]. apply push_keep.
    + destruct F as (_ & _ & F). auto.
Qed.
Lemma spots_len : forall lg lg', length (lg_nodes lg') = length (lg_nodes lg) -> spots lg' = spots lg.
Proof. intros lg lg' E. unfold spots. now rewrite E. Qed.
Lemma keep_unnamed : forall lg lg', length (lg_nodes lg') = length (lg_nodes lg) -> (forall p, named lg p = true -> named lg' p = true) ->
  unnamed_count lg' <= unnamed_count lg.
Proof.
  intros lg lg' E K. unfold unnamed_count. rewrite (spots_len _ _ E). apply flt_le. intros p _ H. apply negb_true_iff in H. apply negb_true_iff.
  destruct (named lg p) eqn:N; auto. now rewrite (K p N) in H.
Qed.
Lemma keep_unnamed_lt : forall lg lg' x n, length (lg_nodes lg') = length (lg_nodes lg) -> (forall p, named lg p = true -> named lg' p = true) ->
  In x names -> named lg (x, n) = false -> named lg' (x, n) = true -> unnamed_count lg' < unnamed_count lg.
Proof.
  intros lg lg' x n E K I N N'. unfold unnamed_count. rewrite (spots_len _ _ E). apply flt_lt.
  - intros p _ H. apply negb_true_iff in H. apply negb_true_iff. destruct (named lg p) eqn:Np; auto. now rewrite (K p Np) in H.
  - exists (x, n). rewrite N, N'. split; [|auto]. apply in_prod; auto. apply in_seq. unfold named in N'. cbn [fst snd] in N'.
    destruct (nth_error (lg_nodes lg') n) eqn:Z; [|discriminate]. assert (n < length (lg_nodes lg')) by (apply nth_error_Some; congruence). lia.
Qed.
Lemma sealed_count_map : forall l l', map va_sealed l' = map va_sealed l ->
  length (filter (fun v => negb (va_sealed v)) l') = length (filter (fun v => negb (va_sealed v)) l).
Proof.
  induction l as [|v l IH]; intros [|v' l'] E; try discriminate; auto. injection E as E1 E2. cbn. rewrite E1. destruct (va_sealed v); cbn; auto.
Qed.
Lemma seal_less : forall l n v, nth_error l n = Some v -> va_sealed v = false ->
  length (filter (fun v => negb (va_sealed v)) (put l n (set_sealed v))) < length (filter (fun v => negb (va_sealed v)) l).
Proof.
  induction l as [|x l IH]; intros [|n] v E S; cbn in E |- *; try discriminate.
  - injection E as ->. rewrite S. cbn. lia.
  - pose proof (IH n v E S). destruct (va_sealed x); cbn; lia.
Qed.
Lemma seal_le : forall l n v, nth_error l n = Some v ->
  length (filter (fun v => negb (va_sealed v)) (put l n (set_sealed v))) <= length (filter (fun v => negb (va_sealed v)) l).
Proof.
  induction l as [|x l IH]; intros [|n] v E; cbn in E |- *; try discriminate.
  - injection E as ->. destruct (va_sealed v); cbn; lia.
  - pose proof (IH n v E). destruct (va_sealed x); cbn; lia.
Qed.
Lemma put_len : forall l n v, length (put l n v) = length l.
Proof. induction l as [|x l IH]; intros [|n] v; cbn; auto. Qed.
Lemma seal_named : forall lg n lg', on_node lg n set_sealed = Ok lg' -> length (lg_nodes lg') = length (lg_nodes lg) /\ forall p, named lg' p = named lg p.
Proof.
  intros lg n lg' H. unfold on_node in H. destruct (nth_error (lg_nodes lg) n) as [v|] eqn:E; [|discriminate]. injection H as <-. cbn [lg_nodes].
  split; [apply put_len|]. intros [x m]. unfold named. cbn [fst snd lg_nodes]. rewrite put_nth. destruct (Nat.eqb_spec n m) as [<-|]; [|reflexivity].
  assert (L : n < length (lg_nodes lg)) by (apply nth_error_Some; congruence). apply Nat.ltb_lt in L. now rewrite L, E.
Qed.
Lemma unnamed_same : forall lg lg', length (lg_nodes lg') = length (lg_nodes lg) -> (forall p, named lg' p = named lg p) -> unnamed_count lg' = unnamed_count lg.
Proof.
  intros lg lg' E N. unfold unnamed_count. rewrite (spots_len _ _ E). f_equal. apply filter_ext. intros p. now rewrite N.
Qed.
Lemma remove_less : forall a b es, existsb (joins a b) es = true -> length (remove_edge a b es) < length es.
Proof. induction es as [|e es IH]; cbn; intros H; [discriminate|]. destruct (joins a b e); cbn in *; [lia|]. apply IH in H. lia. Qed.

(** Sealing and breaking *)
Lemma other_lgv : forall lg c b lg', apply_chg order lg c = Ok (b, lg') -> new_name c = None -> (forall n, c <> SealExpr n) ->
  length (lg_nodes lg') = length (lg_nodes lg) /\ (forall p, named lg' p = named lg p) /\
  lexeq (lgv lg') (lgv lg) /\ (b = true -> lex (lgv lg') (lgv lg)).
Proof.
  intros lg c b lg' H N NS. destruct c as [x t n|x to n|n|op arg|n]; try discriminate; [| |destruct (NS n eq_refl)]; cbn [apply_chg] in H.
  - destruct (nth_error (lg_nodes lg) n) as [v|] eqn:E; [|discriminate]. destruct (va_sealed v) eqn:S.
    + injection H as <- <-. split; [auto|split; [auto|split; [apply lexeq_refl|discriminate]]].
    + destruct (on_node lg n set_sealed) as [lg1| |] eqn:O; cbn [rbind] in H; try discriminate. injection H as <- <-.
      destruct (seal_named _ _ _ O) as (L & K). unfold on_node in O. rewrite E in O. injection O as <-.
      assert (X : lex (lgv (LGraph (put (lg_nodes lg) n (set_sealed v)) (lg_edges lg) (lg_count lg) (lg_locals lg))) (lgv lg)).
      { unfold lgv. rewrite (unnamed_same _ _ L K). constructor 2. constructor 1; [|reflexivity]. now apply seal_less. }
      split; [exact L|]. split; [exact K|]. split; [right; exact X|auto].
  - destruct (existsb (joins arg op) (lg_edges lg)) eqn:E; injection H as <- <-.
    + assert (X : lex (lgv (LGraph (lg_nodes lg) (remove_edge arg op (lg_edges lg)) (lg_count lg) (lg_locals lg))) (lgv lg)).
      { unfold lgv. rewrite (unnamed_same lg (LGraph (lg_nodes lg) (remove_edge arg op (lg_edges lg)) (lg_count lg) (lg_locals lg))) by reflexivity.
        constructor 2. constructor 2. constructor 1; [|reflexivity]. now apply remove_less. }
      split; [auto|]. split; [auto|]. split; [right; exact X|auto].
    + split; [auto|split; [auto|split; [apply lexeq_refl|discriminate]]].
Qed.
Lemma keep_lgv : forall lg lg', lkeep lg lg' -> lexeq (lgv lg') (lgv lg).
Proof.
  intros lg lg' K. pose proof (lkeep_length _ _ K) as L. destruct K as (S & E & N). unfold lgv, unsealed_count. rewrite (sealed_count_map _ _ S), E.
  apply lex_le; [|apply lexeq_refl]. now apply keep_unnamed.
Qed.
End Locals.
