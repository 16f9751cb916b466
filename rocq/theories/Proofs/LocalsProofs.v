(** Flowing keeps, at every node, the closest binding of each variable. *)
From Coq Require Import String List Bool Arith Lia NArith ZArith Permutation Sorting.Sorted.
From Verif Require Import Model.Base Model.Value Model.Ast Model.Registry Model.AstGraph Model.Locals
  Spec.AstGraphSpec Spec.LocalsSpec.
From Verif Require Import Proofs.RegistryProofs Proofs.AstFlatProofs Proofs.AstExpandProofs Proofs.AstTypedProofs Proofs.LocalsGraphProofs Proofs.LocalsBuildProofs.
Import ListNotations.
Set Implicit Arguments.

(** ** Maps *)
Section Maps.
Variable V : Type.
Notation map_of := (list (str * V)).
Notation lk := (alookup str_eqb).
Notation ins := (ainsert str_eqb).

Lemma lk_ins : forall (m : map_of) k v k', lk k' (ins k v m) = if str_eqb k k' then Some v else lk k' m.
Proof.
  induction m as [|[k0 v0] m IH]; intros k v k'; cbn; [reflexivity|]. destruct (str_eqb_spec k0 k) as [->|N]; cbn.
  - now destruct (str_eqb k k').
  - rewrite IH. destruct (str_eqb_spec k0 k') as [->|N']; [|reflexivity]. destruct (str_eqb_spec k k'); congruence.
Qed.
Lemma lk_none : forall (m : map_of) k, lk k m = None <-> ~ In k (map fst m).
Proof.
  induction m as [|[k0 v0] m IH]; intros k; cbn; [tauto|]. destruct (str_eqb_spec k0 k) as [->|N].
  - split; [discriminate|tauto].
  - rewrite IH. tauto.
Qed.
Lemma lk_in : forall (m : map_of) k v, NoDup (map fst m) -> (lk k m = Some v <-> In (k, v) m).
Proof.
  induction m as [|[k0 v0] m IH]; intros k v N; cbn; [split; [discriminate|tauto]|]. inversion N; subst. destruct (str_eqb_spec k0 k) as [->|NE].
  - split; [intros E; injection E as ->; auto|]. intros [E|I]; [congruence|]. destruct H1. apply in_map_iff. exists (k, v). auto.
  - rewrite IH by auto. split; [auto|]. intros [E|I]; [congruence|auto].
Qed.
Lemma lk_perm : forall (m m' : map_of) k, NoDup (map fst m) -> Permutation m' m -> lk k m' = lk k m.
Proof.
  intros m m' k N P. assert (N' : NoDup (map fst m')) by (eapply Permutation_NoDup; [symmetry; apply Permutation_map, P|exact N]).
  destruct (lk k m) as [v|] eqn:E.
  - apply lk_in in E; auto. apply lk_in; auto. eapply Permutation_in; [symmetry; apply P|exact E].
  - apply lk_none in E. apply lk_none. intros I. apply E. eapply Permutation_in; [apply Permutation_map, P|exact I].
Qed.
Lemma in_ins : forall (m : map_of) k v x, In x (map fst (ins k v m)) <-> x = k \/ In x (map fst m).
Proof.
  induction m as [|[k0 v0] m IH]; intros k v x; cbn; [intuition|]. destruct (str_eqb_spec k0 k) as [->|N]; cbn; [intuition|]. rewrite IH. intuition.
Qed.
Lemma nodup_ins : forall (m : map_of) k v, NoDup (map fst m) -> NoDup (map fst (ins k v m)).
Proof.
  induction m as [|[k0 v0] m IH]; intros k v N; cbn; [constructor; [intros []|constructor]|]. inversion N; subst. destruct (str_eqb_spec k0 k) as [->|NE]; cbn; [exact N|].
  constructor; [|auto]. rewrite in_ins. intros [E|I]; congruence.
Qed.
End Maps.

Notation lk := (alookup str_eqb).

(** ** One step of the flow *)
Definition merged (t : nat) (fv tv : option local) : option local :=
  match fv with
  | None => tv
  | Some v => match tv with Some w => if Nat.eqb (lo_def w) t then Some w else Some v | None => Some v end
  end.

Lemma accrete1_lk : forall t to kv x, lk x (accrete1 t to kv) = if str_eqb (fst kv) x then merged t (Some (snd kv)) (lk x to) else lk x to.
Proof.
  intros t to [k v] x. unfold accrete1. cbn [fst snd]. destruct (str_eqb_spec k x) as [->|N].
  - unfold merged. destruct (lk x to) as [w|] eqn:E.
    + destruct (Nat.eqb (lo_def w) t); [exact E|]. rewrite lk_ins. now destruct (str_eqb_spec x x).
    + rewrite lk_ins. now destruct (str_eqb_spec x x).
  - assert (H : lk x (ainsert str_eqb k v to) = lk x to) by (rewrite lk_ins; now destruct (str_eqb_spec k x)).
    destruct (lk k to) as [w|]; [destruct (Nat.eqb (lo_def w) t); auto|auto].
Qed.
Lemma accrete1_nodup : forall t to kv, NoDup (map fst to) -> NoDup (map fst (accrete1 t to kv)).
Proof. intros t to [k v] N. unfold accrete1. cbn [fst snd]. destruct (lk k to) as [w|]; [destruct (Nat.eqb (lo_def w) t); auto|]; now apply nodup_ins. Qed.
Lemma accretes_lk : forall t l to x, NoDup (map fst l) -> lk x (fold_left (accrete1 t) l to) = merged t (lk x l) (lk x to).
Proof.
  induction l as [|[k v] l IH]; intros to x N; [reflexivity|]. inversion N; subst. cbn [fold_left]. rewrite IH by auto. rewrite accrete1_lk. cbn [fst snd alookup].
  destruct (str_eqb_spec k x) as [->|NE]; [|reflexivity]. apply lk_none in H1. rewrite H1. reflexivity.
Qed.
Lemma accretes_nodup : forall t l to, NoDup (map fst to) -> NoDup (map fst (fold_left (accrete1 t) l to)).
Proof. induction l as [|kv l IH]; intros to N; [exact N|]. apply IH, accrete1_nodup, N. Qed.

(** ** Bindings by number *)
Fixpoint bidx (k : nat) (bs : list binding) (n : nat) (x : str) : option nat :=
  match bs with
  | [] => None
  | (m, y, l) :: bs => match bidx (S k) bs n x with Some i => Some i | None => if Nat.eqb m n && str_eqb y x then Some k else None end
  end.
Lemma bidx_snoc : forall bs k m y l n x, bidx k (bs ++ [(m, y, l)]) n x = if Nat.eqb m n && str_eqb y x then Some (k + length bs) else bidx k bs n x.
Proof.
  induction bs as [|[[m0 y0] l0] bs IH]; intros k m y l n x; cbn.
  - destruct (_ && _); [f_equal; lia|reflexivity].
  - rewrite IH. destruct (Nat.eqb m n && str_eqb y x); [f_equal; lia|reflexivity].
Qed.
Lemma bidx_spec : forall bs k n x, match bidx k bs n x with
  | Some i => exists l, nth_error bs (i - k) = Some (n, x, l) /\ bound_at bs n x = Some l /\ k <= i
  | None => bound_at bs n x = None end.
Proof.
  induction bs as [|[[m y] l] bs IH]; intros k n x; cbn [bidx bound_at]; [reflexivity|]. specialize (IH (S k) n x).
  destruct (bidx (S k) bs n x) as [i|].
  - destruct IH as (l' & A & B & C). exists l'. rewrite B. replace (i - k) with (S (i - S k)) by lia. cbn. split; [auto|]. split; [auto|lia].
  - rewrite IH. destruct (Nat.eqb_spec m n) as [->|]; cbn [andb]; [|reflexivity]. destruct (str_eqb_spec y x) as [->|]; [|reflexivity].
    exists l. rewrite Nat.sub_diag. cbn. auto.
Qed.

Section F.
Variable g : graph.
Hypothesis G : good g.
Variable order : lmap -> lmap.
Hypothesis ORD : forall m, Permutation (order m) m.

Definition look (lg : lgraph) (n : nat) (x : str) : option local :=
  match nth_error (lg_nodes lg) n with Some v => lk x (va_map v) | None => None end.

Definition flows (lg : lgraph) : Prop := forall a, NoDup (out_edges lg a true) /\ forall b, In b (out_edges lg a true) <-> comes_before g a b.

Record base (bs : list binding) (lg : lgraph) : Prop := {
  b_size : length (lg_nodes lg) = sz g;
  b_flow : flows lg;
  b_uniq : forall n v, nth_error (lg_nodes lg) n = Some v -> NoDup (map fst (va_map v));
  b_free : forall n x l, bidx 0 bs n x = None -> look lg n x = Some l -> lo_def l < n;
  b_bound : forall n x i, n < sz g -> bidx 0 bs n x = Some i -> look lg n x = Some (Local i n);
}.
Definition clean (bs : list binding) (lg : lgraph) (n : nat) : Prop := forall x, bidx 0 bs n x = None ->
  (forall m, comes_before g m n -> look lg n x = look lg m x) /\ ((forall m, ~ comes_before g m n) -> look lg n x = None).
Definition weak (bs : list binding) (lg : lgraph) (n : nat) : Prop := forall x m, bidx 0 bs n x = None -> comes_before g m n ->
  look lg n x <> None -> look lg m x <> None.

(** What flowing leaves alone. *)
Definition frame (lg lg' : lgraph) : Prop :=
  lg_edges lg' = lg_edges lg /\ lg_count lg' = lg_count lg /\ lg_locals lg' = lg_locals lg /\ map va_sealed (lg_nodes lg') = map va_sealed (lg_nodes lg).

Lemma b_def : forall bs lg, base bs lg -> forall n x l, look lg n x = Some l -> lo_def l <= n.
Proof.
  intros bs lg B n x l H. destruct (bidx 0 bs n x) as [i|] eqn:E; [|apply (b_free B) in H; auto; lia].
  assert (n < sz g) by (rewrite <- (b_size B); apply nth_error_Some; unfold look in H; destruct (nth_error (lg_nodes lg) n); congruence).
  rewrite (@b_bound _ _ B _ _ _ H0 E) in H. injection H as <-. cbn. lia.
Qed.

Lemma look_put : forall lg n f lg' m x v, on_node lg n f = Ok lg' -> nth_error (lg_nodes lg) n = Some v ->
  look lg' m x = if Nat.eqb n m then lk x (va_map (f v)) else look lg m x.
Proof.
  intros lg n f lg' m x v E N. unfold on_node in E. rewrite N in E. injection E as <-. unfold look. cbn [lg_nodes]. rewrite nth_put.
  destruct (Nat.eqb_spec n m) as [<-|]; [now rewrite N|reflexivity].
Qed.
Lemma map_put : forall B (f : vars -> B) l n v w, nth_error l n = Some w -> f v = f w -> map f (put l n v) = map f l.
Proof. induction l as [|x l IH]; intros [|n] v w E F; cbn in *; try discriminate; [injection E as ->; now rewrite F|]. f_equal. eapply IH; eauto. Qed.

Lemma on_node_some : forall lg n f, n < length (lg_nodes lg) -> exists v lg', nth_error (lg_nodes lg) n = Some v /\ on_node lg n f = Ok lg' /\
  lg' = LGraph (put (lg_nodes lg) n (f v)) (lg_edges lg) (lg_count lg) (lg_locals lg).
Proof. intros lg n f L. unfold on_node. destruct (nth_error (lg_nodes lg) n) as [v|] eqn:E; [eauto|apply nth_error_None in E; lia]. Qed.

Lemma weak_clean : forall bs lg n, clean bs lg n -> weak bs lg n.
Proof. intros bs lg n C x m B H N. destruct (C x B) as (A & _). rewrite <- (A _ H). exact N. Qed.

Lemma flows_edges : forall lg lg', lg_edges lg' = lg_edges lg -> flows lg -> flows lg'.
Proof. intros lg lg' E F a. specialize (F a). unfold out_edges in *. now rewrite E. Qed.

Lemma accrete_step : forall bs lg from to, base bs lg -> comes_before g from to -> weak bs lg to ->
  exists lg', accrete order lg from to = Ok lg' /\ base bs lg' /\ frame lg lg' /\ clean bs lg' to /\
    (forall n, n <> to -> forall x, look lg' n x = look lg n x) /\ (forall x, look lg to x <> None -> look lg' to x <> None).
Proof.
  intros bs lg from to B C W. pose proof (cb_lt G C) as L. unfold accrete.
  destruct (nth_error (lg_nodes lg) from) as [f|] eqn:F; [|apply nth_error_None in F; rewrite (b_size B) in F; lia].
  destruct (@on_node_some lg to (fun v => Vars (accrete_map order (va_map f) (va_map v) to) (va_sealed v))) as (v & lg' & V & E & S); [rewrite (b_size B); lia|].
  exists lg'. split; [exact E|].
  assert (LF : forall x, look lg from x = lk x (va_map f)) by (intros x; unfold look; now rewrite F).
  assert (LV : forall x, look lg to x = lk x (va_map v)) by (intros x; unfold look; now rewrite V).
  assert (NF : NoDup (map fst (va_map f))) by (eapply b_uniq; eauto).
  assert (LT : forall x, look lg' to x = merged to (look lg from x) (look lg to x)).
  { intros x. rewrite (@look_put _ _ _ _ _ _ _ E V), Nat.eqb_refl. cbn [va_map]. unfold accrete_map. rewrite accretes_lk.
    - rewrite LF, LV. f_equal. apply lk_perm; auto.
    - eapply Permutation_NoDup; [symmetry; apply Permutation_map, ORD|exact NF]. }
  assert (LO : forall n, n <> to -> forall x, look lg' n x = look lg n x).
  { intros n N x. rewrite (@look_put _ _ _ _ _ _ _ E V). destruct (Nat.eqb_spec to n); [congruence|reflexivity]. }
  split; [|split; [|split; [|split; [exact LO|]]]].
  - constructor.
    + subst lg'. cbn. rewrite put_length. apply (b_size B).
    + eapply flows_edges; [|apply (b_flow B)]. now subst lg'.
    + intros n w Hw. subst lg'. cbn [lg_nodes] in Hw. rewrite nth_put in Hw. destruct (Nat.eqb_spec to n) as [<-|].
      * rewrite V in Hw. injection Hw as <-. cbn. apply accretes_nodup. eapply b_uniq; eauto.
      * eapply b_uniq; eauto.
    + intros n x l U H. destruct (Nat.eq_dec n to) as [->|N]; [|rewrite LO in H by auto; eapply b_free; eauto].
      rewrite LT in H. unfold merged in H. destruct (look lg from x) as [a|] eqn:EA.
      * pose proof (@b_def _ _ B _ _ _ EA). destruct (look lg to x) as [w|] eqn:EW.
        -- pose proof (@b_free _ _ B _ _ _ U EW). destruct (Nat.eqb _ _); injection H as <-; lia.
        -- injection H as <-. lia.
      * eapply b_free; eauto.
    + intros n x i Ln Hi. destruct (Nat.eq_dec n to) as [->|N]; [|rewrite LO by auto; eapply b_bound; eauto].
      rewrite LT, (@b_bound _ _ B _ _ _ Ln Hi). unfold merged. cbn [lo_def]. rewrite Nat.eqb_refl. now destruct (look lg from x).
  - subst lg'. unfold frame. cbn. repeat (split; [reflexivity|]). eapply map_put; eauto.
  - intros x Hx. split.
    + intros m Hm. assert (m = from) by (eapply cb_fun; eauto). subst m. rewrite (LO from) by lia. rewrite LT. unfold merged.
      destruct (look lg from x) as [a|] eqn:EA.
      * pose proof (@b_def _ _ B _ _ _ EA) as DA. destruct (look lg to x) as [w|] eqn:EW; [|reflexivity].
        pose proof (@b_free _ _ B _ _ _ Hx EW). destruct (Nat.eqb_spec (lo_def w) to) as [D|]; [lia|reflexivity].
      * destruct (look lg to x) eqn:EW; [|reflexivity]. exfalso. apply (W x from Hx C); congruence.
    + intros N. exfalso. eapply N; eauto.
  - intros x H. rewrite LT. unfold merged. destruct (look lg from x); [destruct (look lg to x) as [w|]; [destruct (Nat.eqb _ _)|]; discriminate|exact H].
Qed.

(** ** The whole flow *)
Definition apart (a b : nat) : Prop := forall k, ahead g a k -> ahead g b k -> False.
Fixpoint all_apart (l : list nat) : Prop := match l with [] => True | a :: l => (forall b, In b l -> apart a b) /\ all_apart l end.

Lemma all_apart_app : forall l r, all_apart l -> all_apart r -> (forall a b, In a l -> In b r -> apart a b) -> all_apart (l ++ r).
Proof.
  induction l as [|a l IH]; intros r L R H; [exact R|]. destruct L as (L1 & L2). split.
  - intros b I. apply in_app_or in I. destruct I; [auto|]. apply H; [now left|auto].
  - apply IH; auto. intros x y X. apply H. now right.
Qed.
Lemma siblings_all_apart : forall p l, NoDup l -> (forall a, In a l -> comes_before g p a) -> all_apart l.
Proof.
  induction l as [|a l IH]; intros N H; [exact Logic.I|]. inversion N; subst. split.
  - intros b I k A B. assert (a = b) by (eapply (siblings_apart G (p:=p)); eauto; apply H; [now left|now right]). congruence.
  - apply IH; auto. intros; apply H; now right.
Qed.
Lemma nodup_remove : forall (l : list nat) x, NoDup l -> NoDup (remove Nat.eq_dec x l).
Proof.
  induction l as [|a l IH]; intros x N; cbn; [constructor|]. inversion N; subst. destruct (Nat.eq_dec x a); [auto|]. constructor; [|auto].
  intros I. apply in_remove in I. tauto.
Qed.
Lemma remove_shorter : forall (l : list nat) x, In x l -> length (remove Nat.eq_dec x l) < length l.
Proof. intros. now apply remove_length_lt. Qed.

Lemma frame_trans : forall a b c, frame a b -> frame b c -> frame a c.
Proof. unfold frame. intros a b c (A & B & C & D) (A' & B' & C' & D'). repeat split; congruence. Qed.
Lemma frame_refl : forall a, frame a a.
Proof. intros a. repeat split. Qed.

Lemma in_pushed : forall lg n f t, In (f, t) (pushed lg n) <-> f = n /\ In t (out_edges lg n true).
Proof.
  intros. unfold pushed. rewrite <- in_rev, in_map_iff. split.
  - intros (x & E & I). injection E as <- <-. auto.
  - intros (-> & I). eauto.
Qed.
Lemma pushed_tos : forall lg n, map snd (pushed lg n) = rev (out_edges lg n true).
Proof. intros. unfold pushed. rewrite <- map_rev, map_map. apply map_id. Qed.

Lemma flow_loop_ok : forall fuel bs lg stack R, base bs lg ->
  (forall f t, In (f, t) stack -> comes_before g f t /\ weak bs lg t) ->
  (forall n, ~ In n (map snd stack) -> clean bs lg n) ->
  all_apart (map snd stack) -> (forall t k, In t (map snd stack) -> ahead g t k -> In k R) -> length R <= fuel ->
  exists lg', flow_loop order fuel lg stack = Ok lg' /\ base bs lg' /\ frame lg lg' /\ (forall n, clean bs lg' n).
Proof.
  induction fuel as [|fuel IH]; intros bs lg stack R B W C AP RE LE; destruct stack as [|[from to] stack]; cbn [flow_loop].
  - exists lg. split; [reflexivity|]. split; [auto|]. split; [apply frame_refl|]. intros n. apply C. intros [].
  - exfalso. specialize (RE to to (or_introl eq_refl) (ah_refl g to)). destruct R; [destruct RE|cbn in LE; lia].
  - exists lg. split; [reflexivity|]. split; [auto|]. split; [apply frame_refl|]. intros n. apply C. intros [].
  - destruct (W from to (or_introl eq_refl)) as (CB & WT).
    destruct (accrete_step B CB WT) as (lg1 & E & B1 & F1 & C1 & O1 & K1). rewrite E. cbn [rbind].
    assert (FL : forall b, In b (out_edges lg1 to true) <-> comes_before g to b) by (intros b; apply (b_flow B1 to)).
    assert (CH : forall n, clean bs lg n -> ~ comes_before g to n -> n <> to -> clean bs lg1 n).
    { intros n Cn N NT x X. destruct (Cn x X) as (P & Q). split.
      - intros m Hm. rewrite O1 by auto. rewrite (P m Hm). destruct (Nat.eq_dec m to) as [->|]; [contradiction|]. symmetry. now apply O1.
      - intros H. rewrite O1 by auto. now apply Q. }
    assert (WH : forall n, weak bs lg n -> n <> to -> weak bs lg1 n).
    { intros n Wn NT x m X Hm H. rewrite O1 in H by auto. specialize (Wn x m X Hm H). destruct (Nat.eq_dec m to) as [->|]; [now apply K1|]. now rewrite O1. }
    destruct AP as (AP1 & AP2).
    destruct (IH bs lg1 (pushed lg1 to ++ stack) (remove Nat.eq_dec to R)) as (lg2 & E2 & B2 & F2 & C2); auto.
    + intros f t I. apply in_app_or in I. destruct I as [I|I].
      * apply in_pushed in I. destruct I as (-> & I). apply FL in I. split; [auto|]. pose proof (cb_lt G I). apply WH; [|lia].
        destruct (in_dec Nat.eq_dec t (map snd stack)) as [J|J].
        -- apply in_map_iff in J. destruct J as ([f' t'] & <- & J). now destruct (W f' t' (or_intror J)).
        -- apply weak_clean, C. intros [K|K]; [cbn in K; lia|contradiction].
      * destruct (W f t (or_intror I)) as (P & Q). split; [auto|]. apply WH; auto. intros ->.
        apply (AP1 to) with (k := to); try apply ah_refl. apply in_map_iff. exists (f, to). auto.
    + intros n N. rewrite map_app, in_app_iff, pushed_tos, <- in_rev in N. destruct (Nat.eq_dec n to) as [->|NT]; [exact C1|].
      apply CH; auto.
      * apply C. intros [K|K]; [cbn in K; congruence|tauto].
      * intros H. apply FL in H. tauto.
    + rewrite map_app, pushed_tos. apply all_apart_app; auto.
      * apply siblings_all_apart with (p := to); [apply NoDup_rev; apply (b_flow B1 to)|]. intros a I. rewrite <- in_rev in I. now apply FL.
      * intros a b I J k A A'. rewrite <- in_rev in I. apply FL in I. apply (AP1 b J k); auto.
        eapply (ahead_trans); [eapply ah_step; [apply ah_refl|exact I]|exact A].
    + intros t k I A. rewrite map_app, in_app_iff, pushed_tos, <- in_rev in I. apply in_in_remove.
      * intros ->. destruct I as [I|I].
        -- apply FL in I. apply (cb_lt G) in I. apply (ahead_le G) in A. lia.
        -- apply (AP1 t I to); [apply ah_refl|exact A].
      * destruct I as [I|I].
        -- apply FL in I. apply (RE to); [now left|]. eapply ahead_trans; [eapply ah_step; [apply ah_refl|exact I]|exact A].
        -- apply (RE t); [now right|auto].
    + assert (I : In to R) by (apply (RE to); [now left|apply ah_refl]). apply (@remove_shorter R) in I. lia.
    + exists lg2. split; [exact E2|]. split; [auto|]. split; [eapply frame_trans; eauto|auto].
Qed.

(** A node at which variables were added, before they flow on. *)
Definition pending (bs : list binding) (lg : lgraph) (n : nat) : Prop :=
  base bs lg /\ (forall m, comes_before g n m -> weak bs lg m) /\ (forall m, ~ comes_before g n m -> clean bs lg m).
Definition settled (bs : list binding) (lg : lgraph) : Prop := base bs lg /\ forall n, clean bs lg n.

Lemma settled_pending : forall bs lg n, settled bs lg -> pending bs lg n.
Proof. intros bs lg n (B & C). split; [auto|]. split; [|auto]. intros m _. now apply weak_clean. Qed.

Lemma flow_ok : forall bs lg n, n < sz g -> pending bs lg n -> exists lg', flow order lg n = Ok lg' /\ settled bs lg' /\ frame lg lg'.
Proof.
  intros bs lg n L (B & W & C). unfold flow. pose proof (b_flow B n) as (ND & FL).
  destruct (@flow_loop_ok (length (lg_nodes lg)) bs lg (pushed lg n) (seq 0 (sz g))) as (lg' & E & B' & F & C'); auto.
  - intros f t I. apply in_pushed in I. destruct I as (-> & I). apply FL in I. auto.
  - intros m N. rewrite pushed_tos, <- in_rev in N. apply C. intros H. now apply FL in H.
  - rewrite pushed_tos. apply siblings_all_apart with (p := n); [now apply NoDup_rev|]. intros a I. rewrite <- in_rev in I. now apply FL.
  - intros t k I A. rewrite pushed_tos, <- in_rev in I. apply FL in I. apply (cb_lt G) in I. apply in_seq. apply (ahead_bound G) in A; lia.
  - rewrite seq_length, (b_size B). lia.
  - exists lg'. split; [exact E|]. split; [split; auto|exact F].
Qed.

Lemma add_ok : forall bs lg n x c e, n < sz g -> pending bs lg n -> length (lg_locals lg) = length bs ->
  exists lg', insert_at (push_local lg c e) n x (Local (length (lg_locals lg)) n) = Ok lg' /\ pending (bs ++ [(n, x, e)]) lg' n /\
    lg_edges lg' = lg_edges lg /\ lg_count lg' = c /\ lg_locals lg' = lg_locals lg ++ [e] /\ map va_sealed (lg_nodes lg') = map va_sealed (lg_nodes lg).
Proof.
  intros bs lg n x c e L (B & W & C) LB. unfold insert_at. set (l := Local _ _). set (lg1 := push_local lg c e).
  destruct (@on_node_some lg1 n (fun v => Vars (ainsert str_eqb x l (va_map v)) (va_sealed v))) as (v & lg' & V & E & S); [cbn; rewrite (b_size B); lia|].
  exists lg'. split; [exact E|].
  assert (LK : forall m y, look lg' m y = if Nat.eqb n m && str_eqb x y then Some l else look lg m y).
  { intros m y. rewrite (@look_put _ _ _ _ _ _ _ E V). destruct (Nat.eqb_spec n m) as [<-|]; [|reflexivity]. cbn [va_map]. rewrite lk_ins. cbn [andb].
    destruct (str_eqb x y); [reflexivity|]. unfold look. cbn in V. now rewrite V. }
  assert (BX : forall m y, bidx 0 (bs ++ [(n, x, e)]) m y = if Nat.eqb n m && str_eqb x y then Some (length bs) else bidx 0 bs m y) by (intros; apply bidx_snoc).
  split; [|subst lg'; cbn; repeat split; auto; eapply map_put; eauto].
  split; [|split].
  - constructor.
    + subst lg'. cbn. rewrite put_length. apply (b_size B).
    + eapply flows_edges; [|apply (b_flow B)]. now subst lg'.
    + intros m w Hw. subst lg'. cbn [lg_nodes] in Hw. rewrite nth_put in Hw. cbn [lg1 push_local lg_nodes] in Hw, V. destruct (Nat.eqb_spec n m) as [<-|].
      * rewrite V in Hw. injection Hw as <-. cbn. apply nodup_ins. eapply b_uniq; eauto.
      * eapply b_uniq; eauto.
    + intros m y w U H. rewrite BX in U. rewrite LK in H. destruct (Nat.eqb n m && str_eqb x y); [discriminate|]. eapply b_free; eauto.
    + intros m y i Lm Hi. rewrite BX in Hi. rewrite LK. destruct (Nat.eqb n m && str_eqb x y) eqn:Q.
      * injection Hi as <-. apply andb_true_iff in Q. destruct Q as (Q & _). apply Nat.eqb_eq in Q. subst m. unfold l. now rewrite LB.
      * eapply b_bound; eauto.
  - intros m Hm y p U Hp H. assert (p = n) by (eapply cb_fun; eauto). subst p. rewrite BX in U. rewrite LK in H. pose proof (cb_lt G Hm).
    destruct (Nat.eqb_spec n m) as [|NM]; [lia|]. cbn [andb] in *. rewrite LK, Nat.eqb_refl. cbn [andb]. destruct (str_eqb x y); [discriminate|].
    eapply W; eauto.
  - intros m Hm y U. rewrite BX in U. destruct (Nat.eqb n m && str_eqb x y) eqn:Q; [discriminate|]. destruct (C m Hm y U) as (P & Z). rewrite LK, Q. split; [|exact Z].
    intros p Hp. rewrite (P p Hp), LK. destruct (Nat.eqb_spec n p) as [->|]; [contradiction|]. reflexivity.
Qed.

(** ** What is found *)
Lemma settled_look : forall bs lg x, settled bs lg -> forall n, n < sz g ->
  match look lg n x with
  | Some l => exists e, nth_error bs (lo_idx l) = Some (lo_def l, x, e) /\ visible g bs x n (lo_def l) e
  | None => forall d e, ~ visible g bs x n d e
  end.
Proof.
  intros bs lg x (B & C). induction n as [n IH] using lt_wf_ind. intros L. pose proof (bidx_spec bs 0 n x) as S. destruct (bidx 0 bs n x) as [i|] eqn:E.
  - rewrite (@b_bound _ _ B _ _ _ L E). destruct S as (e & N & H & _). rewrite Nat.sub_0_r in N. exists e. cbn. split; [auto|]. now constructor.
  - destruct (C n x E) as (P & Q). destruct (cb_dec G n) as [(m & M)|M].
    + rewrite (P m M). specialize (IH m (proj1 (cb_lt G M)) ltac:(pose proof (cb_lt G M); lia)). destruct (look lg m x) as [l|].
      * destruct IH as (e & N & V). exists e. split; [auto|]. eapply vis_before; eauto.
      * intros d e V. inversion V as [? ? H|m' ? ? ? H1 H2 H3]; subst; [congruence|]. assert (m' = m) by (eapply cb_fun; eauto). subst. eapply IH; eauto.
    + rewrite (Q M). intros d e V. inversion V as [? ? H|m' ? ? ? H1 H2 H3]; subst; [congruence|]. eapply M; eauto.
Qed.
Lemma visible_fun : forall bs x n d e, visible g bs x n d e -> forall d' e', visible g bs x n d' e' -> d = d' /\ e = e'.
Proof.
  intros bs x n d e V. induction V as [n l H|m n d l H1 H2 H3 IH]; intros d' e' V'; inversion V'; subst; try congruence.
  - split; congruence.
  - assert (m0 = m) by (eapply cb_fun; eauto). subst. auto.
Qed.

Lemma get_spec : forall bs lg n x, settled bs lg -> lg_locals lg = map snd bs -> n < sz g ->
  exists o, get_ lg n x = Ok o /\ (forall l, o = Some l <-> exists d, visible g bs x n d l).
Proof.
  intros bs lg n x ST LL L. pose proof (@settled_look _ _ x ST n L) as H. unfold get_. unfold look in H.
  destruct (nth_error (lg_nodes lg) n) as [v|] eqn:E; [|apply nth_error_None in E; rewrite (b_size (proj1 ST)) in E; lia].
  destruct (lk x (va_map v)) as [l|].
  - destruct H as (e & N & V). rewrite LL, (map_nth_error _ _ _ N). cbn. exists (Some e). split; [reflexivity|]. intros l'. split.
    + intros X. injection X as <-. eauto.
    + intros (d & V'). destruct (visible_fun V V') as (_ & ->). reflexivity.
  - exists None. split; [reflexivity|]. intros l'. split; [discriminate|]. intros (d & V). destruct (H _ _ V).
Qed.
End F.
