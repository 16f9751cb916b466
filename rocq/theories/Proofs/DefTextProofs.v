(** The definition around a line. *)
From Coq Require Import List ZArith NArith Bool Arith Lia.
From Verif Require Import Model.Base Model.Utf Model.Lsp Model.DefText Spec.LspSpec Spec.DefTextSpec Proofs.UtfLemmas Proofs.LspProofs.
Import ListNotations.

(** ** Runs *)
Lemma take_run : forall A (p : A -> bool) l, exists c, c <= length l /\ take_while p l = firstn c l /\ (forall k x, k < c -> nth_error l k = Some x -> p x = true) /\ (forall x, nth_error l c = Some x -> p x = false).
Proof.
  intros A p. induction l as [|x l (c & L & E & H & N)]; [exists 0; cbn; repeat split; auto; intros; [lia|discriminate]|]. cbn [take_while]. destruct (p x) eqn:P.
  - exists (S c). cbn. split; [lia|]. split; [now rewrite E|]. split; [|auto]. intros [|k] y K Y; cbn in Y; [congruence|]. eapply H; [|exact Y]. lia.
  - exists 0. cbn. split; [lia|]. split; [auto|]. split; [intros; lia|]. intros y Y. congruence.
Qed.
Lemma skip_run : forall A (p : A -> bool) l, exists c, c <= length l /\ skip_while p l = skipn c l /\ (forall k x, k < c -> nth_error l k = Some x -> p x = true) /\ (forall x, nth_error l c = Some x -> p x = false).
Proof.
  intros A p. induction l as [|x l (c & L & E & H & N)]; [exists 0; cbn; repeat split; auto; intros; [lia|discriminate]|]. cbn [skip_while]. destruct (p x) eqn:P.
  - exists (S c). cbn. split; [lia|]. split; [now rewrite E|]. split; [|auto]. intros [|k] y K Y; cbn in Y; [congruence|]. eapply H; [|exact Y]. lia.
  - exists 0. cbn. split; [lia|]. split; [auto|]. split; [intros; lia|]. intros y Y. congruence.
Qed.
Lemma nth_rev : forall A (l : list A) k, k < length l -> nth_error (rev l) k = nth_error l (length l - S k).
Proof.
  intros A l k L. destruct l as [|d l]; [cbn in L; lia|]. rewrite (nth_error_nth' (rev (d :: l)) d) by (rewrite rev_length; auto). rewrite (nth_error_nth' (d :: l) d) by (cbn in *; lia). f_equal. now apply rev_nth.
Qed.
Lemma last_run : forall A (p : A -> bool) l, exists b, b <= length l /\ rev (take_while p (rev l)) = skipn b l /\ (forall k x, b <= k -> nth_error l k = Some x -> p x = true) /\ (b = 0 \/ exists x, nth_error l (b - 1) = Some x /\ p x = false).
Proof.
  intros A p l. destruct (take_run _ p (rev l)) as (c & L & E & H & N). rewrite rev_length in L. exists (length l - c). split; [lia|]. split; [|split].
  - rewrite E, firstn_rev. apply rev_involutive.
  - intros k x K X. assert (k < length l) by (apply nth_error_Some; congruence). apply (H (length l - S k)); [lia|]. rewrite nth_rev by lia. rewrite <- X. f_equal. lia.
  - destruct (Nat.eq_dec c (length l)) as [->|C]; [left; lia|]. right. destruct (nth_error l (length l - c - 1)) as [x|] eqn:X; [|apply nth_error_None in X; lia]. exists x. split; [auto|]. apply N. rewrite nth_rev by lia. rewrite <- X. f_equal. lia.
Qed.
Lemma post_run : forall ws l, exists d, d <= length l /\ take_post ws true l = firstn d l /\ (l <> [] -> 0 < d) /\ (forall k x, 0 < k < d -> nth_error l k = Some x -> blank ws (snd x) = false) /\ (d = length l \/ exists x, nth_error l d = Some x /\ blank ws (snd x) = true).
Proof.
  intros ws [|x l]; [exists 0; cbn; repeat split; auto; intros; [congruence|lia]|]. cbn [take_post orb].
  assert (E : take_post ws false l = take_while (fun x => negb (blank ws (snd x))) l) by (clear; induction l as [|y l IH]; cbn; [auto|]; destruct (negb _); congruence).
  destruct (take_run _ (fun x => negb (blank ws (snd x))) l) as (c & L & E2 & H & N). exists (S c). cbn [length firstn]. split; [lia|]. split; [congruence|]. split; [lia|]. split.
  - intros [|k] y K Y; [lia|]. cbn in Y. apply H in Y; [|lia]. now apply negb_true_iff in Y.
  - destruct (nth_error l c) as [y|] eqn:Y; [|apply nth_error_None in Y; left; lia]. right. exists y. split; [auto|]. apply negb_false_iff. now apply N.
Qed.
Lemma splice : forall A (L : list A) i l d, i <= l -> l <= length L -> skipn i (firstn l L) ++ firstn d (skipn l L) = firstn (l - i + d) (skipn i L).
Proof.
  intros A L i l d I H. rewrite <- (firstn_skipn l L) at 3. rewrite skipn_app, firstn_length_le by lia. replace (i - l) with 0 by lia. cbn [skipn].
  rewrite firstn_app, skipn_length, firstn_length_le by lia. replace (l - i + d - (l - i)) with d by lia. f_equal. symmetry. apply firstn_all2. rewrite skipn_length, firstn_length_le by lia. lia.
Qed.
Lemma blank_iff : forall ws l, blank ws l = true <-> Forall (fun c => ws c = true) l.
Proof. intros. unfold blank. rewrite forallb_forall, Forall_forall. reflexivity. Qed.
Lemma numbered_nth : forall (ls : list str) a k x, nth_error (combine (seq a (length ls)) ls) k = Some x <-> fst x = a + k /\ nth_error ls k = Some (snd x).
Proof.
  induction ls as [|l ls IH]; intros a k [i y]; cbn; [destruct k; split; [discriminate|intros (_ & H); discriminate|discriminate|intros (_ & H); discriminate]|].
  destruct k as [|k]; cbn; [split; [intros [= <- <-]; split; [lia|auto]|intros (-> & [= ->]); repeat f_equal; lia]|]. rewrite IH. cbn. split; intros (-> & ->); split; auto; lia.
Qed.
Lemma numbered_length : forall (ls : list str), length (combine (seq 0 (length ls)) ls) = length ls.
Proof. intros. rewrite combine_length, seq_length. lia. Qed.
Lemma numbered_snd : forall (ls : list str) a, map snd (combine (seq a (length ls)) ls) = ls.
Proof. induction ls as [|l ls IH]; intros a; cbn; [auto|]. now rewrite IH. Qed.
Lemma folded : forall (m : list (nat * str)) o s, fold_left (fun acc x => (match fst acc with Some i => Some i | None => Some (fst x) end, snd acc ++ snd x ++ [10%N])) m (o, s) =
  (match o with Some i => Some i | None => match m with [] => None | x :: _ => Some (fst x) end end, s ++ unlines (map snd m)).
Proof.
  induction m as [|x m IH]; intros o s; cbn [fold_left]; [destruct o; cbn; now rewrite app_nil_r|]. rewrite IH. cbn [fst snd map]. unfold unlines. cbn [map concat]. rewrite <- !app_assoc. destruct o; reflexivity.
Qed.
Lemma nth_first : forall A (l : list A) n k, k < n -> nth_error (firstn n l) k = nth_error l k.
Proof. induction l as [|x l IH]; intros [|n] k H; try lia; cbn; [now destruct k|]. destruct k; cbn; [auto|]. apply IH. lia. Qed.
Lemma nth_skip : forall A (l : list A) n k, nth_error (skipn n l) k = nth_error l (n + k).
Proof. induction l as [|x l IH]; intros [|n] k; cbn; auto. now destruct k. Qed.
Lemma first_min : forall A (l : list A) n, firstn n l = firstn (min n (length l)) l.
Proof. intros A l n. destruct (Nat.min_spec n (length l)) as [(_ & ->)|(H & ->)]; [auto|]. rewrite firstn_all. now apply firstn_all2. Qed.
Lemma skip_min : forall A (l : list A) n, skipn n l = skipn (min n (length l)) l.
Proof. intros A l n. destruct (Nat.min_spec n (length l)) as [(_ & ->)|(H & ->)]; [auto|]. rewrite skipn_all. now apply skipn_all2. Qed.
Lemma skip_skip : forall A c b (l : list A), skipn c (skipn b l) = skipn (b + c) l.
Proof. intros A c. induction b as [|b IH]; intros l; [auto|]. destruct l as [|x l]; cbn; [now destruct c|apply IH]. Qed.
Section D.
Variables (bc : bool) (ws : N -> bool).
Theorem text_excerpt : forall text line, exists i j, excerpt ws (doc_lines bc text) line i j /\
  snd (get_def_text bc ws text line) = unlines (between (doc_lines bc text) i j) /\ (i < j -> fst (get_def_text bc ws text line) = i).
Proof.
  intros text line. unfold get_def_text. set (ls := doc_lines bc text). cbv zeta. set (L := combine (seq 0 (length ls)) ls). assert (LL : length L = length ls) by apply numbered_length.
  assert (NL : forall k x, nth_error L k = Some x <-> fst x = k /\ nth_error ls k = Some (snd x)) by (intros; apply (numbered_nth ls 0)).
  rewrite (first_min _ L line), (skip_min _ L line), LL. set (n := min line (length ls)). assert (n <= line /\ n <= length ls) as (N1 & N2) by (unfold n; lia).
  destruct (last_run _ (fun x => negb (blank ws (snd x))) (firstn n L)) as (b & B1 & B2 & B3 & B4). rewrite firstn_length_le in B1 by lia. rewrite B2. clear B2.
  destruct (skip_run _ (fun x => comment (snd x)) (skipn b (firstn n L))) as (c & C1 & C2 & C3 & C4). rewrite C2. clear C2. rewrite skipn_length, firstn_length_le in C1 by lia.
  destruct (post_run ws (skipn n L)) as (d & D1 & D2 & D3 & D4 & D5). rewrite D2. clear D2. rewrite skipn_length in D1, D5. rewrite folded. cbn [fst snd]. rewrite app_nil_l.
  assert (FULL : forall k, b <= k < n -> full_line ws ls k).
  { intros k K. destruct (nth_error ls k) as [l|] eqn:E; [|apply nth_error_None in E; lia]. exists l. split; [auto|]. rewrite <- blank_iff. assert (X : nth_error (firstn n L) k = Some (k, l)) by (rewrite nth_first by lia; apply NL; auto).
    apply B3 in X; [|lia]. cbn [snd] in X. apply negb_true_iff in X. rewrite X. discriminate. }
  assert (COM : forall k l, b + c > k -> b <= k -> nth_error ls k = Some l -> comment l = true).
  { intros k l K K2 E. assert (X : nth_error (skipn b (firstn n L)) (k - b) = Some (k, l)) by (rewrite nth_skip; replace (b + (k - b)) with k by lia; rewrite nth_first by lia; apply NL; auto).
    apply C3 in X; [auto|lia]. }
  assert (EQ : skipn c (skipn b (firstn n L)) ++ firstn d (skipn n L) = firstn (n + d - (b + c)) (skipn (b + c) L)).
  { rewrite skip_skip. rewrite splice by lia. f_equal. lia. }
  rewrite EQ. clear EQ. exists (b + c), (n + d). split; [|split].
  - constructor.
    + lia.
    + intros k K1 K2. apply FULL. lia.
    + intros I1 I2 (l & E). assert (X : nth_error (skipn b (firstn n L)) c = Some (b + c, 35%N :: l)) by (rewrite nth_skip, nth_first by lia; apply NL; auto). apply C4 in X. discriminate.
    + exists b. split; [lia|]. split; [lia|]. split.
      * destruct B4 as [B4|(x & B4 & B5)]; [auto|]. right. exists (snd x). apply negb_false_iff in B5. rewrite <- blank_iff. split; [|auto]. assert (b - 1 < n) by (rewrite <- (firstn_length_le L (n := n)) by lia; apply nth_error_Some; congruence).
        rewrite nth_first in B4 by lia. now apply NL in B4.
      * intros k K. split; [apply FULL; lia|]. destruct (nth_error ls k) as [l|] eqn:E; [|apply nth_error_None in E; lia]. assert (X := COM k l ltac:(lia) ltac:(lia) E). destruct l as [|a l]; [discriminate|]. apply N.eqb_eq in X. subst a. exists l. auto.
    + intros H. assert (0 < d); [|lia]. apply D3. intros Z. apply (f_equal (@length _)) in Z. rewrite skipn_length in Z. cbn in Z. lia.
    + intros k K. destruct (nth_error ls k) as [l|] eqn:E; [|apply nth_error_None in E; lia]. exists l. split; [auto|]. rewrite <- blank_iff.
      assert (n = line) by (unfold n in *; lia). assert (X : nth_error (skipn n L) (k - n) = Some (k, l)) by (rewrite nth_skip; replace (n + (k - n)) with k by lia; apply NL; auto).
      apply D4 in X; [cbn [snd] in X; rewrite X; discriminate|lia].
    + destruct D5 as [D5|(x & D5 & D6)]; [left; lia|]. rewrite nth_skip in D5. apply NL in D5. destruct D5 as (D5 & D7). right. assert (n + d < length ls) by (apply nth_error_Some; congruence).
      assert (0 < d). { apply D3. intros Z. apply (f_equal (@length _)) in Z. rewrite skipn_length in Z. cbn in Z. lia. } split; [unfold n in *; lia|]. exists (snd x). split; [auto|]. now apply blank_iff.
  - unfold between. f_equal. rewrite <- firstn_map, <- skipn_map. unfold L. now rewrite numbered_snd.
  - intros H. destruct (firstn (n + d - (b + c)) (skipn (b + c) L)) as [|x m] eqn:E.
    + apply (f_equal (@length _)) in E. rewrite firstn_length_le in E by (rewrite skipn_length; lia). cbn in E. lia.
    + assert (X : nth_error (skipn (b + c) L) 0 = Some x) by (rewrite <- (nth_first _ _ (n + d - (b + c))) by lia; now rewrite E). rewrite nth_skip, Nat.add_0_r in X. now apply NL in X.
Qed.
End D.
Lemma not_both : forall ws ls k, empty_line ws ls k -> full_line ws ls k -> False.
Proof. intros ws ls k (l & E & H) (l' & E' & H'). rewrite E in E'. injection E' as <-. auto. Qed.
Lemma ex_run : forall ws ls line i j i' j', excerpt ws ls line i j -> excerpt ws ls line i' j' -> forall b b', (b = 0 \/ empty_line ws ls (b - 1)) -> (forall k, b' <= k < i' -> full_line ws ls k) -> b <= i -> i <= length ls -> b' < b -> False.
Proof.
  intros ws ls line i j i' j' X Y b b' [B|B] F L LN H; [lia|]. eapply not_both; [exact B|]. destruct (Nat.lt_ge_cases (b - 1) i') as [Z|Z]; [apply F; lia|].
  apply (ex_before Y); [|lia]. destruct (ex_bounds X) as (? & _). lia.
Qed.
Lemma ex_start : forall ws ls line i j i' j', excerpt ws ls line i j -> excerpt ws ls line i' j' -> i < i' -> False.
Proof.
  intros ws ls line i j i' j' X Y H. destruct (ex_comments X) as (b & B1 & B2 & B3 & B4). destruct (ex_comments Y) as (b' & C1 & C2 & C3 & C4). destruct (ex_bounds Y) as (Y1 & _).
  assert (b <= b') by (destruct (Nat.le_gt_cases b b') as [Z|Z]; [auto|exfalso; exact (ex_run ws ls line i j i' j' X Y b b' B3 (fun k K => proj1 (C4 k K)) B1 B2 Z)]).
  assert (b' <= b) by (destruct (Nat.le_gt_cases b' b) as [Z|Z]; [auto|exfalso; exact (ex_run ws ls line i' j' i j Y X b' b C3 (fun k K => proj1 (B4 k K)) C1 C2 Z)]).
  apply (ex_top X); [lia|lia|]. apply C4. lia.
Qed.
Lemma ex_stop : forall ws ls line i j i' j', excerpt ws ls line i j -> excerpt ws ls line i' j' -> j < j' -> False.
Proof.
  intros ws ls line i j i' j' X Y H. destruct (ex_bounds Y) as (_ & _ & Y1). destruct (ex_end X) as [E|(L & E)]; [lia|]. eapply not_both; [exact E|]. apply (ex_after Y). lia.
Qed.
Theorem excerpt_one : forall ws ls line i j i' j', excerpt ws ls line i j -> excerpt ws ls line i' j' -> i = i' /\ j = j'.
Proof.
  intros ws ls line i j i' j' X Y. split.
  - destruct (Nat.lt_trichotomy i i') as [H|[H|H]]; [exfalso; exact (ex_start _ _ _ _ _ _ _ X Y H)|auto|exfalso; exact (ex_start _ _ _ _ _ _ _ Y X H)].
  - destruct (Nat.lt_trichotomy j j') as [H|[H|H]]; [exfalso; exact (ex_stop _ _ _ _ _ _ _ X Y H)|auto|exfalso; exact (ex_stop _ _ _ _ _ _ _ Y X H)].
Qed.

(** ** Where the cursor is *)
Lemma no_lf_split : forall s l, In l (split_lf s) -> ~ In 10%N l.
Proof.
  induction s as [|c s IH]; intros l H; cbn in H; [destruct H as [<-|[]]; auto|]. destruct (N.eqb_spec c 10) as [E|E].
  - destruct H as [<-|H]; [auto|now apply IH].
  - destruct (split_lf s) as [|x xs] eqn:S; [destruct H as [<-|[]]; intros [Z|[]]; auto|]. destruct H as [<-|H]; [|apply IH; now right]. intros [Z|Z]; [auto|]. apply (IH x); [now left|auto].
Qed.
Lemma no_lf_strip : forall l, ~ In 10%N l -> ~ In 10%N (strip_cr l).
Proof. intros l H Z. destruct (strip_cr_prefix l) as (t & E). apply H. rewrite E. apply in_or_app. now left. Qed.
Lemma no_lf_lines : forall bc ps off l, (forall x, In x ps -> ~ In 10%N x) -> In l (map snd (lines_at bc off ps)) -> ~ In 10%N l.
Proof.
  intros bc. induction ps as [|x ps IH]; intros off l F H; [destruct H|]. destruct ps as [|y ps].
  - cbn in H. destruct x as [|a x]; [destruct H|]. destruct H as [<-|[]]. destruct bc; [apply no_lf_strip|]; apply F; now left.
  - rewrite lines_at_cons in H. destruct H as [<-|H]; [cbn; apply no_lf_strip, F; now left|]. eapply IH; [|exact H]. intros; apply F; now right.
Qed.
Lemma no_lf_doc : forall bc text l, In l (doc_lines bc text) -> ~ In 10%N l.
Proof. intros bc text l H. eapply no_lf_lines; [|exact H]. apply no_lf_split. Qed.
Lemma split_unlines : forall ls, (forall l, In l ls -> ~ In 10%N l) -> split_lf (unlines ls) = ls ++ [[]].
Proof.
  induction ls as [|l ls IH]; intros F; [reflexivity|]. unfold unlines. cbn [map concat]. rewrite <- app_assoc. cbn [app]. change (concat (map (fun l => l ++ [10%N]) ls)) with (unlines ls).
  rewrite split_lf_piece by (apply F; now left). rewrite IH by (intros; apply F; now right). reflexivity.
Qed.
Lemma lines_unlines_at : forall bc ls off, map snd (lines_at bc off (ls ++ [[]])) = map strip_cr ls.
Proof.
  intros bc. induction ls as [|l ls IH]; intros off; [reflexivity|]. cbn [app]. destruct (ls ++ [[]]) as [|m ms] eqn:E; [now destruct ls|]. rewrite lines_at_cons. cbn [map snd]. now rewrite IH.
Qed.
Lemma lines_unlines : forall bc ls, (forall l, In l ls -> ~ In 10%N l) -> doc_lines bc (unlines ls) = map strip_cr ls.
Proof. intros bc ls F. unfold doc_lines, str_lines. rewrite split_unlines by auto. apply lines_unlines_at. Qed.
Lemma strip_none : forall l, no_return l -> strip_cr l = l.
Proof.
  intros l H. unfold strip_cr. destruct (rev l) as [|c r] eqn:E; [auto|]. destruct (N.eqb_spec c 13) as [->|]; [|auto]. exfalso. apply H. exists (rev r). rewrite <- (rev_involutive l), E. reflexivity.
Qed.
Lemma unlines_app : forall a b, unlines (a ++ b) = unlines a ++ unlines b.
Proof. intros. unfold unlines. now rewrite map_app, concat_app. Qed.
Lemma counted : forall ls x, fold_left (fun x y => x + byte_len y + 1) ls x = x + byte_len (unlines ls).
Proof.
  induction ls as [|l ls IH]; intros x; cbn [fold_left]; [cbn; lia|]. rewrite IH. change (l :: ls) with ([l] ++ ls). rewrite unlines_app, byte_len_app. unfold unlines at 2. cbn [map concat]. rewrite app_nil_r, byte_len_app. cbn [byte_len]. change (len_utf8 10) with 1. lia.
Qed.
Section P.
Variables (bc : bool) (ws : N -> bool).
Notation lines := (doc_lines bc).
Lemma between_split : forall (ls : list str) i k j, i <= k -> k < j -> j <= length ls -> exists l, nth_error ls k = Some l /\ between ls i j = between ls i k ++ l :: between ls (S k) j.
Proof.
  intros ls i k j H1 H2 H3. destruct (nth_error ls k) as [l|] eqn:E; [|apply nth_error_None in E; lia]. exists l. split; [auto|]. unfold between.
  assert (E2 : skipn i ls = firstn (k - i) (skipn i ls) ++ l :: skipn (S k) ls).
  { rewrite <- (firstn_skipn (k - i) (skipn i ls)) at 1. f_equal. rewrite skip_skip. replace (i + (k - i)) with k by lia. clear -E. revert k E. induction ls as [|x ls IH]; intros [|k] E; try discriminate; cbn in *; [congruence|]. now apply IH. }
  rewrite E2 at 1. rewrite firstn_app, firstn_length_le by (rewrite skipn_length; lia). rewrite firstn_firstn. replace (min (j - i) (k - i)) with (k - i) by lia. f_equal. replace (j - i - (k - i)) with (S (j - S k)) by lia. reflexivity.
Qed.
Lemma between_in : forall (ls : list str) i j l, In l (between ls i j) -> In l ls.
Proof. intros ls i j l H. unfold between in H. rewrite <- (firstn_skipn i ls). apply in_or_app. right. rewrite <- (firstn_skipn (j - i) (skipn i ls)). apply in_or_app. now left. Qed.
Lemma between_length : forall (ls : list str) i j, i <= j -> j <= length ls -> length (between ls i j) = j - i.
Proof. intros ls i j H1 H2. unfold between. rewrite firstn_length_le; [auto|]. rewrite skipn_length. lia. Qed.
Lemma here : forall text p l i j, nth_error (lines text) (p_line p) = Some l -> excerpt ws (lines text) (p_line p) i j -> (forall x, In x (between (lines text) i (S (p_line p))) -> no_return x) ->
  place bc i (unlines (between (lines text) i j)) p = Some (byte_len (unlines (between (lines text) i (p_line p))) + linech_to_idx l (p_char p)).
Proof.
  intros text p l i j E X NR. destruct (ex_bounds X) as (B1 & B2 & B3). assert (LN : p_line p < length (lines text)) by (apply nth_error_Some; congruence). pose proof (ex_line X LN) as LJ.
  destruct (between_split (lines text) i (p_line p) j B1 LJ B3) as (l' & E' & SP). assert (l' = l) as -> by congruence. unfold place.
  assert (LF : forall x, In x (between (lines text) i j) -> ~ In 10%N x) by (intros x Z; eapply no_lf_doc, between_in; exact Z).
  rewrite lines_unlines by exact LF. assert (LEN : length (between (lines text) i (p_line p)) = p_line p - i) by (apply between_length; lia).
  assert (NR' : forall x, In x (between (lines text) i (p_line p)) \/ x = l -> strip_cr x = x).
  { intros x Z. apply strip_none, NR. destruct (between_split (lines text) i (p_line p) (S (p_line p))) as (l2 & E2 & S2); [lia|lia|lia|]. rewrite S2. apply in_or_app. destruct Z as [Z| ->]; [now left|]. right. left. congruence. }
  rewrite SP, map_app. assert (M : map strip_cr (between (lines text) i (p_line p)) = between (lines text) i (p_line p)).
  { rewrite <- (map_id (between (lines text) i (p_line p))) at 2. apply map_ext_in. intros x Z. apply NR'. now left. }
  rewrite M. cbn [map]. rewrite (NR' l) by now right. rewrite nth_error_app2 by lia. replace (p_line p - i - length (between (lines text) i (p_line p))) with 0 by lia. cbn [nth_error].
  rewrite firstn_app, firstn_all2 by lia. replace (p_line p - i - length (between (lines text) i (p_line p))) with 0 by lia. cbn [firstn]. rewrite app_nil_r, counted. f_equal. lia.
Qed.
Lemma code_is : forall text line i j, excerpt ws (lines text) line i j -> i < j -> get_def_text bc ws text line = (i, unlines (between (lines text) i j)).
Proof.
  intros text line i j X L. destruct (text_excerpt bc ws text line) as (i' & j' & Y & T & SI). destruct (excerpt_one _ _ _ _ _ _ _ X Y) as (<- & <-). destruct (get_def_text bc ws text line) as [a b]. cbn in *. rewrite SI by auto. now subst b.
Qed.
Lemma typed_at : forall text p l i j a b, nth_error (lines text) (p_line p) = Some l -> excerpt ws (lines text) (p_line p) i j -> (forall x, In x (between (lines text) i (S (p_line p))) -> no_return x) ->
  l = a ++ b -> linech_to_idx l (p_char p) = byte_len a -> typed bc ws text p = Some (Ok (unlines (between (lines text) i (p_line p)) ++ a)).
Proof.
  intros text p l i j a b E X NR El Ea. destruct (ex_bounds X) as (B1 & B2 & B3). assert (LN : p_line p < length (lines text)) by (apply nth_error_Some; congruence). pose proof (ex_line X LN) as LJ.
  unfold typed. rewrite (code_is _ _ _ _ X) by lia. rewrite (here _ _ _ _ _ E X NR), Ea. rewrite <- byte_len_app.
  destruct (between_split (lines text) i (p_line p) j B1 LJ B3) as (l' & E' & SP). assert (l' = l) as -> by congruence. rewrite SP, unlines_app.
  change (l :: between (lines text) (S (p_line p)) j) with ([l] ++ between (lines text) (S (p_line p)) j). rewrite unlines_app. unfold unlines at 3. cbn [map concat]. rewrite El, app_nil_r, <- !app_assoc.
  rewrite (app_assoc (unlines _) a). now rewrite take_bytes_app.
Qed.
Theorem typed_exact : forall text p i j a b, nth_error (lines text) (p_line p) = Some (a ++ b) -> utf16_len a = p_char p -> excerpt ws (lines text) (p_line p) i j ->
  (forall x, In x (between (lines text) i (S (p_line p))) -> no_return x) -> typed bc ws text p = Some (Ok (unlines (between (lines text) i (p_line p)) ++ a)).
Proof. intros text p i j a b E U X NR. eapply typed_at; [exact E|exact X|exact NR|reflexivity|]. rewrite <- U. apply linech_hit. Qed.
Theorem place_exact : forall text p i j a b, nth_error (lines text) (p_line p) = Some (a ++ b) -> utf16_len a = p_char p -> excerpt ws (lines text) (p_line p) i j ->
  (forall x, In x (between (lines text) i (S (p_line p))) -> no_return x) -> place bc (fst (get_def_text bc ws text (p_line p))) (snd (get_def_text bc ws text (p_line p))) p = Some (byte_len (unlines (between (lines text) i (p_line p)) ++ a)).
Proof.
  intros text p i j a b E U X NR. assert (LN : p_line p < length (lines text)) by (apply nth_error_Some; congruence). pose proof (ex_line X LN) as LJ. destruct (ex_bounds X) as (B1 & B2 & B3).
  rewrite (code_is _ _ _ _ X) by lia. cbn [fst snd]. rewrite (here _ _ _ _ _ E X NR), <- U, linech_hit, byte_len_app. reflexivity.
Qed.
Theorem typed_ok : forall text p l i j, nth_error (lines text) (p_line p) = Some l -> excerpt ws (lines text) (p_line p) i j ->
  (forall x, In x (between (lines text) i (S (p_line p))) -> no_return x) -> exists a b, l = a ++ b /\ typed bc ws text p = Some (Ok (unlines (between (lines text) i (p_line p)) ++ a)).
Proof. intros text p l i j E X NR. destruct (linech_boundary l (p_char p)) as (a & b & El & Ea). exists a, b. split; [auto|]. eapply typed_at; eauto. Qed.
Theorem typed_outside : forall text p, length (lines text) <= p_line p -> typed bc ws text p = None.
Proof.
  intros text p L. unfold typed. destruct (text_excerpt bc ws text (p_line p)) as (i & j & X & T & SI). destruct (get_def_text bc ws text (p_line p)) as [a code]. cbn [fst snd] in *. unfold place. subst code.
  destruct (ex_bounds X) as (B1 & B2 & B3). rewrite lines_unlines by (intros x Z; eapply no_lf_doc, between_in; exact Z). destruct (nth_error _ _) as [l|] eqn:E; [|auto]. exfalso.
  assert (p_line p - a < length (map strip_cr (between (lines text) i j))) by (apply nth_error_Some; congruence). rewrite map_length, between_length in H by auto. assert (a = i) by (apply SI; lia). lia.
Qed.
End P.
