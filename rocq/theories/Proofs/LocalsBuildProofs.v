(** The graph of variables as it is built. *)
From Coq Require Import String List Bool Arith Lia NArith ZArith Permutation Sorting.Sorted.
From Verif Require Import Model.Base Model.Value Model.Ast Model.Registry Model.AstGraph Model.Locals
  Spec.AstGraphSpec Spec.LocalsSpec.
From Verif Require Import Proofs.AstFlatProofs Proofs.AstExpandProofs Proofs.AstTypedProofs Proofs.LocalsGraphProofs.
Import ListNotations.
Set Implicit Arguments.

(** ** Edges *)
Definition ends (e : ledge) : nat * nat := (le_src e, le_dst e).
Definition pairs (es : list ledge) : list (nat * nat) := map ends es.
Definition tidy (es : list ledge) : Prop := NoDup (pairs es) /\ forall e, In e es -> le_flow e = Nat.ltb (le_src e) (le_dst e).

Lemma joins_ends : forall a b e, joins a b e = true <-> ends e = (a, b).
Proof.
  intros a b e. unfold joins, ends. rewrite andb_true_iff, !Nat.eqb_eq. split; [intros (-> & ->); reflexivity|]. intros E. injection E. auto.
Qed.
Lemma replace_none : forall es a b f, replace_edge a b f es = None -> ~ In (a, b) (pairs es).
Proof.
  induction es as [|e es IH]; intros a b f E; cbn in *; [tauto|]. destruct (joins a b e) eqn:J; [discriminate|].
  destruct (replace_edge a b f es) eqn:R; [discriminate|]. intros [X|X]; [apply joins_ends in X; congruence|]. eapply IH; eauto.
Qed.
Lemma replace_some : forall es a b f es', replace_edge a b f es = Some es' -> pairs es' = pairs es /\
  (forall e, In e es' -> In e es \/ e = LEdge a b f) /\ In (a, b) (pairs es).
Proof.
  induction es as [|e es IH]; intros a b f es' E; cbn in E; [discriminate|]. destruct (joins a b e) eqn:J.
  - injection E as <-. apply joins_ends in J. cbn. rewrite J. split; [reflexivity|]. split; [|now left].
    intros x [<-|X]; auto.
  - destruct (replace_edge a b f es) as [es1|] eqn:R; [|discriminate]. injection E as <-. destruct (IH _ _ _ _ R) as (A & B & C).
    unfold pairs in *. cbn. rewrite A. split; [reflexivity|]. split; [|now right]. intros x [<-|X]; [auto|]. destruct (B _ X); auto.
Qed.
Lemma update_edge_spec : forall es a b, tidy es -> tidy (update_edge a b (Nat.ltb a b) es) /\
  forall p, In p (pairs (update_edge a b (Nat.ltb a b) es)) <-> In p (pairs es) \/ p = (a, b).
Proof.
  intros es a b (N & F). unfold update_edge. destruct (replace_edge _ _ _ es) as [es'|] eqn:R.
  - apply replace_some in R. destruct R as (A & B & C). split.
    + split; [now rewrite A|]. intros e I. destruct (B _ I) as [J| ->]; [auto|reflexivity].
    + intros p. rewrite A. split; [auto|]. intros [I| ->]; auto.
  - apply replace_none in R. split.
    + split.
      * unfold pairs in *. rewrite map_app. change (map ends [LEdge a b (Nat.ltb a b)]) with [(a, b)]. rewrite <- (rev_involutive (map ends es ++ [(a, b)])).
        apply NoDup_rev. rewrite rev_app_distr. cbn. constructor; [now rewrite <- in_rev|]. now apply NoDup_rev.
      * intros e I. apply in_app_or in I. destruct I as [I|[<-|[]]]; [auto|reflexivity].
    + intros p. unfold pairs. rewrite map_app, in_app_iff. cbn. intuition.
Qed.

(** ** Steps *)
Definition adds (lg lg' : lgraph) (Q : nat * nat -> Prop) (Z : nat -> Prop) : Prop :=
  (tidy (lg_edges lg) -> tidy (lg_edges lg') /\ forall p, In p (pairs (lg_edges lg')) <-> In p (pairs (lg_edges lg)) \/ Q p) /\
  lg_count lg' = lg_count lg /\ lg_locals lg' = lg_locals lg /\ length (lg_nodes lg') = length (lg_nodes lg) /\
  forall n v, nth_error (lg_nodes lg) n = Some v -> exists v', nth_error (lg_nodes lg') n = Some v' /\ va_map v' = va_map v /\
    (va_sealed v' = true <-> va_sealed v = true \/ Z n).

Lemma adds_refl : forall lg, adds lg lg (fun _ => False) (fun _ => False).
Proof. intros lg. split; [intros; split; [auto|]; tauto|]. repeat (split; [reflexivity|]). intros n v E. exists v. split; [auto|]. split; [auto|]. tauto. Qed.
Lemma adds_trans : forall a b c Q1 Q2 Z1 Z2, adds a b Q1 Z1 -> adds b c Q2 Z2 -> adds a c (fun p => Q1 p \/ Q2 p) (fun n => Z1 n \/ Z2 n).
Proof.
  intros a b c Q1 Q2 Z1 Z2 (A1 & A2 & A3 & A4 & A5) (B1 & B2 & B3 & B4 & B5). split; [|repeat split; try congruence].
  - intros T. destruct (A1 T) as (T1 & P1). destruct (B1 T1) as (T2 & P2). split; [auto|]. intros p. rewrite P2, P1. tauto.
  - intros n v E. destruct (A5 _ _ E) as (v1 & E1 & M1 & S1). destruct (B5 _ _ E1) as (v2 & E2 & M2 & S2). exists v2.
    split; [auto|]. split; [congruence|]. rewrite S2, S1. tauto.
Qed.
Lemma adds_iff : forall a b Q Q' Z Z', adds a b Q Z -> (forall p, Q p <-> Q' p) -> (forall n, Z n <-> Z' n) -> adds a b Q' Z'.
Proof.
  intros a b Q Q' Z Z' (A1 & A2 & A3 & A4 & A5) HQ HZ. split; [|repeat split; auto].
  - intros T. destruct (A1 T) as (T1 & P1). split; [auto|]. intros p. rewrite P1, HQ. tauto.
  - intros n v E. destruct (A5 _ _ E) as (v1 & E1 & M1 & S1). exists v1. split; [auto|]. split; [auto|]. rewrite S1, HZ. tauto.
Qed.
Lemma adds_edge : forall lg a b f, f = Nat.ltb a b -> adds lg (with_edge a b f lg) (fun p => p = (a, b)) (fun _ => False).
Proof.
  intros lg a b f ->. split; [intros T; apply update_edge_spec, T|]. repeat (split; [reflexivity|]).
  intros n v E. exists v. split; [auto|]. split; [auto|]. tauto.
Qed.
Lemma put_length : forall l n v, length (put l n v) = length l.
Proof. induction l as [|x l IH]; intros [|n] v; cbn; auto. Qed.
Lemma nth_put : forall l n v m, nth_error (put l n v) m = if Nat.eqb n m then match nth_error l m with Some _ => Some v | None => None end else nth_error l m.
Proof.
  induction l as [|x l IH]; intros [|n] v [|m]; cbn; auto.
  now destruct (Nat.eqb n m).
Qed.
Lemma adds_seal : forall lg n lg', on_node lg n set_sealed = Ok lg' -> adds lg lg' (fun _ => False) (fun m => m = n).
Proof.
  intros lg n lg' E. unfold on_node in E. destruct (nth_error (lg_nodes lg) n) as [v0|] eqn:E0; [|discriminate]. injection E as <-.
  split; [intros T; split; [auto|]; cbn; tauto|]. cbn. repeat (split; [reflexivity|]). split; [apply put_length|].
  intros m v E. rewrite nth_put, E. destruct (Nat.eqb_spec n m) as [->|NE].
  - exists (set_sealed v0). rewrite E in E0. injection E0 as <-. split; [reflexivity|]. split; [reflexivity|]. cbn. tauto.
  - exists v. split; [reflexivity|]. split; [reflexivity|]. split; [tauto|]. intros [X|X]; [auto|congruence].
Qed.

Lemma rfold_adds : forall A (f : lgraph -> A -> res lgraph) (Q : A -> nat * nat -> Prop) (Z : A -> nat -> Prop) l lg lg',
  (forall lg a lg', In a l -> f lg a = Ok lg' -> adds lg lg' (Q a) (Z a)) -> rfold f l lg = Ok lg' ->
  adds lg lg' (fun p => exists a, In a l /\ Q a p) (fun n => exists a, In a l /\ Z a n).
Proof.
  induction l as [|a l IH]; intros lg lg' H E; cbn in E.
  - injection E as <-. eapply adds_iff; [apply adds_refl| |]; intros; split; try tauto; intros (? & [] & _).
  - destruct (f lg a) as [lg1| |] eqn:E1; cbn in E; try discriminate.
    eapply adds_iff; [eapply adds_trans; [eapply H; [now left|exact E1]|eapply IH; [|exact E]]| |].
    + intros x y z I. apply H. now right.
    + intros p. split; [intros [X|(b & I & X)]; [exists a|exists b]; cbn; auto|]. intros (b & [->|I] & X); [auto|right; eauto].
    + intros p. split; [intros [X|(b & I & X)]; [exists a|exists b]; cbn; auto|]. intros (b & [->|I] & X); [auto|right; eauto].
Qed.

Section G.
Variable g : graph.
Hypothesis G : good g.

Lemma op_split : forall o, is_op g o = true -> exists e t l r, node g e = Some (NExpr t) /\ children g e = l ++ o :: r.
Proof.
  intros o H. unfold is_op in H. destruct (node g o) as [[t|? ?|? ?|?|?|? ?|? ?|?|?]|] eqn:E; try discriminate.
  destruct (@op_has_parent g G _ _ E) as (e & te & X & I). apply in_split in I. destruct I as (l & r & C). eauto 6.
Qed.
Lemma next_before : forall o n, op_next g o = Ok (Some n) -> is_op g o = true -> comes_before g o n.
Proof.
  intros o n E O. destruct (op_split _ O) as (e & t & l & r & X & C). rewrite (@op_next_ok g G _ _ _ _ _ X C) in E. injection E as E.
  destruct r as [|b r]; [discriminate|]. injection E as <-. eapply cb_block; eauto.
Qed.
Lemma before_next : forall o n, comes_before g o n -> is_op g o = true -> is_op g n = true -> op_next g o = Ok (Some n).
Proof.
  intros o n H O N. apply cb_inv in H. destruct H as [(e & t & l & r & E & C)|[(t & r & E & C)|(t & E & C & F)]].
  - now rewrite (@op_next_ok g G _ _ _ _ _ E C).
  - unfold is_op in O. rewrite E in O. discriminate.
  - destruct (@op_child g G _ _ _ E C) as (x & X & T). unfold is_op in N. rewrite X in N. destruct x; try discriminate. contradiction.
Qed.

Lemma edges_for_op_adds : forall lg o lg', is_op g o = true -> edges_for_op g lg o = Ok lg' ->
  adds lg lg' (fun p => exists n, op_next g o = Ok (Some n) /\ (p = (o, n) \/ p = (n, o))) (fun _ => False).
Proof.
  intros lg o lg' O E. unfold edges_for_op in E. destruct (op_next g o) as [[n|]| |] eqn:EN; cbn [rbind] in E; try discriminate; injection E as <-.
  - pose proof (next_before _ EN O) as B. apply (cb_lt G) in B.
    eapply adds_iff; [eapply adds_trans; [apply adds_edge|apply adds_edge]| |].
    + symmetry. apply Nat.ltb_lt. lia.
    + symmetry. apply Nat.ltb_ge. lia.
    + intros p. cbn. split; [intros H; exists n; tauto|]. intros (m & X & Y). injection X as <-. tauto.
    + cbn. tauto.
  - eapply adds_iff; [apply adds_refl| |]; cbn; [|tauto]. intros p. split; [tauto|]. intros (m & X & _). discriminate.
Qed.

Lemma arg_parts : forall a, is_arg g a = true -> exists o t, node g o = Some (NOp t) /\ arg_op g a = Ok o /\ comes_before g o a.
Proof.
  intros a A. apply (is_arg_spec G) in A. destruct A as (o & t & O & C & F). exists o, t. split; [auto|]. split; [now apply (arg_op_ok G)|].
  eapply cb_arg; eauto.
Qed.
Lemma prev_before : forall o, is_op g o = true -> exists q, comes_before g q o /\
  match op_prev g o with Ok (Some p) => p = q | Ok None => op_parent g o = Ok q | _ => False end.
Proof.
  intros o O. destruct (op_split _ O) as (e & t & l & r & X & C). rewrite (@op_prev_ok g G _ _ _ _ _ X C).
  destruct l as [|x l] using rev_ind.
  - exists e. cbn. split; [eapply cb_first; eauto|]. apply (@op_parent_ok g G _ _ _ X). rewrite C. now left.
  - exists x. rewrite rev_app_distr. cbn. split; [|reflexivity]. rewrite <- app_assoc in C. cbn in C. eapply cb_block; eauto.
Qed.

Lemma edges_for_arg_adds : forall lg a lg', is_arg g a = true -> edges_for_arg g lg a = Ok lg' ->
  adds lg lg' (fun p => exists o, comes_before g o a /\ (p = (o, a) \/ p = (a, o) \/ exists q, comes_before g q o /\ p = (a, q))) (fun n => n = a).
Proof.
  intros lg a lg' A E. unfold edges_for_arg in E. destruct (on_node lg a set_sealed) as [lg1| |] eqn:E1; cbn [rbind] in E; try discriminate.
  destruct (arg_parts _ A) as (o & t & O & AO & B). rewrite AO in E. cbn [rbind] in E.
  destruct (@prev_before o) as (q & QB & QP); [unfold is_op; now rewrite O|].
  pose proof (cb_lt G B) as L1. pose proof (cb_lt G QB) as L2.
  assert (E' : lg' = with_edge a q false (with_edge a o false (with_edge o a true lg1))).
  { destruct (op_prev g o) as [[p|]| |]; cbn [rbind] in E; try contradiction.
    - subst p. injection E as <-. reflexivity.
    - rewrite QP in E. cbn in E. injection E as <-. reflexivity. }
  subst lg'. eapply adds_iff; [eapply adds_trans; [apply adds_seal, E1|eapply adds_trans; [apply adds_edge|eapply adds_trans; [apply adds_edge|apply adds_edge]]]| |].
  - symmetry. apply Nat.ltb_lt. lia.
  - symmetry. apply Nat.ltb_ge. lia.
  - symmetry. apply Nat.ltb_ge. lia.
  - intros p. cbn. split.
    + intros H. exists o. split; [exact B|]. destruct H as [[]|[H|[H|H]]]; auto. right. right. exists q. auto.
    + intros (o' & B' & H). assert (o' = o) by (eapply cb_fun; eauto). subst o'. destruct H as [H|[H|(q' & Q' & H)]]; auto.
      assert (q' = q) by (eapply cb_fun; eauto). subst q'. auto.
  - cbn. tauto.
Qed.

Lemma edges_for_expr_adds : forall lg e lg', is_expr g e = true -> edges_for_expr g lg e = Ok lg' ->
  (exists a r, children g e = a :: r) /\
  adds lg lg' (fun p => exists a r, children g e = a :: r /\ (p = (e, a) \/ p = (a, e))) (fun _ => False).
Proof.
  intros lg e lg' X E. unfold is_expr in X. destruct (node g e) as [[t|? ?|? ?|?|?|? ?|? ?|?|t]|] eqn:N; try discriminate.
  unfold edges_for_expr in E. rewrite (@first_op_ok g G _ _ N) in E. destruct (children g e) as [|a r] eqn:C; cbn [rbind] in E; [discriminate|].
  injection E as <-. split; [eauto|].
  assert (L : e < a) by (assert (In a (children g e)) as I by (rewrite C; now left); apply (child_lt G) in I; lia).
  eapply adds_iff; [eapply adds_trans; [apply adds_edge|apply adds_edge]| |].
  - symmetry. apply Nat.ltb_lt. lia.
  - symmetry. apply Nat.ltb_ge. lia.
  - intros p. cbn. split; [intros H; exists a, r; tauto|]. intros (x & y & Y & H). injection Y as <- <-. tauto.
  - cbn. tauto.
Qed.

(** An edge for sealing leads to what comes before; from an argument also to what comes before its op. *)
Definition seals (a b : nat) : Prop := comes_before g b a \/ (is_arg g a = true /\ exists o, comes_before g o a /\ comes_before g b o).

Lemma in_nodes : forall (p : nat -> bool) n, (p n = true -> n < sz g) -> In n (filter p (indices g)) <-> p n = true.
Proof. intros p n L. rewrite filter_In. unfold indices. rewrite in_seq. intuition lia. Qed.
Lemma kind_lt : forall n, is_op g n = true \/ is_expr g n = true \/ is_arg g n = true -> n < sz g.
Proof. intros n H. apply nth_error_Some. unfold is_op, is_expr, is_arg, node in H. destruct (nth_error (g_nodes g) n); [discriminate|intuition discriminate]. Qed.

Record built (lg : lgraph) : Prop := {
  bl_size : length (lg_nodes lg) = sz g;
  bl_tidy : tidy (lg_edges lg);
  bl_pairs : forall a b, In (a, b) (pairs (lg_edges lg)) <-> comes_before g a b \/ seals a b;
  bl_nodes : forall n v, nth_error (lg_nodes lg) n = Some v -> va_map v = [] /\ (va_sealed v = true <-> is_arg g n = true \/ n = 0);
  bl_count : lg_count lg = 0;
  bl_locals : lg_locals lg = []
}.

Lemma build_spec : forall lg, build g = Ok lg -> built lg /\ forall e t, node g e = Some (NExpr t) -> children g e <> [].
Proof.
  intros lg E. unfold build in E. set (lg0 := LGraph (repeat (Vars [] false) (sz g)) [] 0 []) in *.
  destruct (rfold (edges_for_op g) (op_nodes g) lg0) as [lg1| |] eqn:E1; cbn [rbind] in E; try discriminate.
  destruct (rfold (edges_for_arg g) (arg_nodes g) lg1) as [lg2| |] eqn:E2; cbn [rbind] in E; try discriminate.
  destruct (rfold (edges_for_expr g) (expr_nodes g) lg2) as [lg3| |] eqn:E3; cbn [rbind] in E; try discriminate.
  assert (NE : forall e t, node g e = Some (NExpr t) -> children g e <> []).
  { intros e t N. assert (I : In e (expr_nodes g)) by (apply in_nodes; [intros _; apply kind_lt; right; left|]; unfold is_expr; now rewrite N).
    clear - I E3 G N. revert lg2 E3. induction (expr_nodes g) as [|x l IH]; intros lg2 E3; [destruct I|]. cbn in E3.
    destruct (edges_for_expr g lg2 x) as [lg4| |] eqn:E; cbn in E3; try discriminate. destruct I as [->|I]; [|eapply IH; eauto].
    unfold edges_for_expr in E. rewrite (@first_op_ok g G _ _ N) in E. destruct (children g e); [discriminate|discriminate]. }
  assert (IO : forall a, In a (op_nodes g) -> is_op g a = true) by (intros a I; apply filter_In in I; apply I).
  assert (IA : forall a, In a (arg_nodes g) -> is_arg g a = true) by (intros a I; apply filter_In in I; apply I).
  assert (IE : forall a, In a (expr_nodes g) -> is_expr g a = true) by (intros a I; apply filter_In in I; apply I).
  assert (A1 : adds lg0 lg1 (fun p => exists o, In o (op_nodes g) /\ exists n, op_next g o = Ok (Some n) /\ (p = (o, n) \/ p = (n, o))) (fun n => exists o, In o (op_nodes g) /\ False)).
  { apply (rfold_adds _ (fun o p => exists n, op_next g o = Ok (Some n) /\ (p = (o, n) \/ p = (n, o))) (fun _ _ => False)) with (2 := E1).
    intros x o y I H. apply edges_for_op_adds; auto. }
  assert (A2 : adds lg1 lg2 (fun p => exists a, In a (arg_nodes g) /\ exists o, comes_before g o a /\ (p = (o, a) \/ p = (a, o) \/ exists q, comes_before g q o /\ p = (a, q)))
    (fun n => exists a, In a (arg_nodes g) /\ n = a)).
  { apply (rfold_adds _ (fun a p => exists o, comes_before g o a /\ (p = (o, a) \/ p = (a, o) \/ exists q, comes_before g q o /\ p = (a, q))) (fun a n => n = a)) with (2 := E2).
    intros x o y I H. apply edges_for_arg_adds; auto. }
  assert (A3 : adds lg2 lg3 (fun p => exists e, In e (expr_nodes g) /\ exists a r, children g e = a :: r /\ (p = (e, a) \/ p = (a, e))) (fun n => exists o, In o (expr_nodes g) /\ False)).
  { apply (rfold_adds _ (fun e p => exists a r, children g e = a :: r /\ (p = (e, a) \/ p = (a, e))) (fun _ _ => False)) with (2 := E3).
    intros x o y I H. eapply edges_for_expr_adds; eauto. }
  pose proof (adds_trans (adds_trans (adds_trans A1 A2) A3) (adds_seal _ _ E)) as (B1 & B2 & B3 & B4 & B5).
  split; [|exact NE].
  assert (T0 : tidy (lg_edges lg0)) by (split; [constructor|intros ? []]).
  destruct (B1 T0) as (T & P). constructor.
  - rewrite B4. apply repeat_length.
  - exact T.
  - intros a b. rewrite P. cbn [lg0 lg_edges pairs map In]. split.
    + intros [[]|[[[(o & I & n & N & H)|(x & I & o & B & H)]|(e & I & x & r & C & H)]|[]]].
      * apply in_nodes in I; [|intros; apply kind_lt; tauto]. apply next_before in N; auto. destruct H as [H|H]; injection H as -> ->; [left; auto|right; left; auto].
      * apply in_nodes in I; [|intros; apply kind_lt; tauto]. destruct H as [H|[H|(q & Q & H)]]; injection H as -> ->; [left; auto|right; left; auto|].
        right. right. split; [auto|]. exists o. auto.
      * apply in_nodes in I; [|intros; apply kind_lt; tauto]. unfold is_expr in I. destruct (node g e) as [[t|? ?|? ?|?|?|? ?|? ?|?|t]|] eqn:N; try discriminate.
        assert (comes_before g e x) by (eapply cb_first; eauto). destruct H as [H|H]; injection H as -> ->; [left; auto|right; left; auto].
    + assert (D : forall a b, comes_before g a b ->
        (exists o, In o (op_nodes g) /\ op_next g o = Ok (Some b) /\ a = o) \/ (In b (arg_nodes g)) \/ (In a (expr_nodes g) /\ exists r, children g a = b :: r)).
      { intros x y H. pose proof (cb_kind G H) as K. apply cb_inv in H as H'. destruct H' as [(e & t & l & r & X & C)|[(t & r & X & C)|(t & X & C & F)]].
        - left. exists x. assert (OX : is_op g x = true).
          { destruct (@expr_child g G e t x X) as (t' & Y); [rewrite C; apply in_or_app; right; now left|]. unfold is_op. now rewrite Y. }
          split; [apply in_nodes; [intros; apply kind_lt; tauto|auto]|]. split; [|reflexivity]. now rewrite (@op_next_ok g G _ _ _ _ _ X C).
        - right. right. split; [|eauto]. apply in_nodes; [intros; apply kind_lt; tauto|]. unfold is_expr. now rewrite X.
        - right. left. apply in_nodes; [intros; apply kind_lt; tauto|]. apply (is_arg_spec G). eauto. }
      intros [H|[H|(A & o & H1 & H2)]].
      * right. left. destruct (D _ _ H) as [(o & I & N & ->)|[I|(I & r & C)]].
        -- left. left. exists o. eauto.
        -- left. right. exists b. split; [auto|]. exists a. auto.
        -- right. exists a. split; [auto|]. exists b, r. auto.
      * right. left. destruct (D _ _ H) as [(o & I & N & ->)|[I|(I & r & C)]].
        -- left. left. exists o. eauto.
        -- left. right. exists a. split; [auto|]. exists b. auto.
        -- right. exists b. split; [auto|]. exists a, r. auto.
      * right. left. left. right. exists a. split; [apply in_nodes; [intros; apply kind_lt; tauto|auto]|]. exists o. split; [auto|]. right. right. eauto.
  - intros n v E0. assert (L : n < sz g) by (assert (n < length (lg_nodes lg)) by (apply nth_error_Some; congruence); rewrite B4 in H; cbn in H; now rewrite repeat_length in H).
    assert (Z : nth_error (lg_nodes lg0) n = Some (Vars [] false)) by (cbn; now apply nth_error_repeat).
    destruct (B5 _ _ Z) as (v' & V & M & S). rewrite E0 in V. injection V as <-. split; [exact M|]. rewrite S. cbn [va_sealed]. split.
    + intros [X|[[[(? & _ & [])|(a & I & ->)]|(? & _ & [])]|X]]; [discriminate|left|right; auto]. apply in_nodes in I; [auto|intros; apply kind_lt; tauto].
    + intros [X| ->]; [|tauto]. right. left. left. right. exists n. split; [|auto]. apply in_nodes; [intros; apply kind_lt; tauto|auto].
  - rewrite B2. reflexivity.
  - rewrite B3. reflexivity.
Qed.

(** ** It is built whenever no expression is empty *)
Lemma rfold_total : forall A (f : lgraph -> A -> res lgraph) l lg (P : lgraph -> Prop), (forall lg a, In a l -> P lg -> exists lg', f lg a = Ok lg' /\ P lg') -> P lg ->
  exists lg', rfold f l lg = Ok lg' /\ P lg'.
Proof.
  induction l as [|a l IH]; intros lg P H I; cbn; [eauto|]. destruct (H lg a (or_introl eq_refl) I) as (lg1 & E & I1). rewrite E. cbn.
  apply IH; auto. intros x y X. apply H. now right.
Qed.
Lemma on_node_ok : forall lg n f, n < length (lg_nodes lg) -> exists lg', on_node lg n f = Ok lg' /\ length (lg_nodes lg') = length (lg_nodes lg).
Proof.
  intros lg n f L. unfold on_node. destruct (nth_error (lg_nodes lg) n) as [v|] eqn:E; [|apply nth_error_None in E; lia].
  eexists. split; [reflexivity|]. cbn. apply put_length.
Qed.
Lemma build_ok : (forall e t, node g e = Some (NExpr t) -> children g e <> []) -> exists lg, build g = Ok lg.
Proof.
  intros NE. unfold build. set (P := fun lg => length (lg_nodes lg) = sz g).
  destruct (@rfold_total _ (edges_for_op g) (op_nodes g) (LGraph (repeat (Vars [] false) (sz g)) [] 0 []) P) as (lg1 & E1 & P1).
  { intros lg a I H. apply in_nodes in I; [|intros; apply kind_lt; tauto]. unfold edges_for_op. destruct (op_split _ I) as (e & t & l & r & X & C).
    rewrite (@op_next_ok g G _ _ _ _ _ X C). cbn [rbind]. eexists. split; [reflexivity|]. destruct (hd_error r); exact H. }
  { apply repeat_length. }
  rewrite E1. cbn [rbind].
  destruct (@rfold_total _ (edges_for_arg g) (arg_nodes g) lg1 P) as (lg2 & E2 & P2); auto.
  { intros lg a I H. apply in_nodes in I; [|intros; apply kind_lt; tauto]. unfold edges_for_arg.
    destruct (@on_node_ok lg a set_sealed) as (lg' & EO & LO); [rewrite H; apply kind_lt; auto|]. rewrite EO. cbn [rbind].
    destruct (arg_parts _ I) as (o & t & O & AO & B). rewrite AO. cbn [rbind].
    destruct (@prev_before o) as (q & QB & QP); [unfold is_op; now rewrite O|].
    destruct (op_prev g o) as [[p|]| |]; cbn [rbind]; try contradiction.
    - eexists. split; [reflexivity|]. unfold P in *. cbn. congruence.
    - rewrite QP. cbn [rbind]. eexists. split; [reflexivity|]. unfold P in *. cbn. congruence. }
  rewrite E2. cbn [rbind].
  destruct (@rfold_total _ (edges_for_expr g) (expr_nodes g) lg2 P) as (lg3 & E3 & P3); auto.
  { intros lg a I H. apply in_nodes in I; [|intros; apply kind_lt; tauto]. unfold edges_for_expr. unfold is_expr in I.
    destruct (node g a) as [[t|? ?|? ?|?|?|? ?|? ?|?|t]|] eqn:N; try discriminate. rewrite (@first_op_ok g G _ _ N).
    specialize (NE _ _ N). destruct (children g a) as [|x r]; [congruence|]. cbn [rbind]. eexists. split; [reflexivity|]. exact H. }
  rewrite E3. cbn [rbind]. destruct (gd_root G) as (t & R).
  destruct (@on_node_ok lg3 0 set_sealed) as (lg' & EO & LO); [rewrite P3; apply nth_error_Some; unfold node in R; congruence|]. eauto.
Qed.
End G.
