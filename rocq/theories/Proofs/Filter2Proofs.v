(** filter on columns and on strings *)
From Coq Require Import String List Bool Arith Lia NArith ZArith.
From Verif Require Import Spec.OpsSpec Model.Base Model.Value Model.TableCrate Model.RowPar Model.TableOps
  Spec.TableSpec Spec.ColSpec Proofs.ListLemmas Proofs.TableBasics.
Import ListNotations.
Set Implicit Arguments.



Lemma hdr_text_spec : forall t j, hdr_text t j = header_text t j.
Proof. intros. unfold hdr_text, header_text, get_cell, cell. reflexivity. Qed.

Lemma remove_nth_split : forall A n (a b : list A) x, length a = n -> remove_nth n (a ++ x :: b) = a ++ b.
Proof. induction n; intros [|y a] b x H; cbn in *; try discriminate; auto. f_equal. apply IHn. lia. Qed.

Lemma marked_app : forall A k1 k2 (a b : list A), length k1 = length a -> marked (k1 ++ k2) (a ++ b) = marked k1 a ++ marked k2 b.
Proof.
  induction k1 as [|x k1 IH]; intros k2 [|y a] b H; cbn in *; try discriminate; auto.
  destruct x; cbn; rewrite IH by lia; auto.
Qed.

Lemma firstn_S_nth : forall A (l : list A) n x, nth_error l n = Some x -> firstn (S n) l = firstn n l ++ [x].
Proof. induction l as [|a l IH]; intros [|n] x H; cbn in *; try discriminate; [congruence|]. f_equal. now apply IH. Qed.

Lemma remove_col_hdr : forall (t : table) j k, j < k -> header_text (remove_col k t) j = header_text t j.
Proof.
  intros [|h d] j k H; auto. unfold header_text, cell. cbn.
  replace (nth_error (remove_nth k h) j) with (nth_error h j); auto.
  revert h k H. induction j as [|j IH]; intros [|x h] [|k] H; cbn; auto; try lia. apply IH. lia.
Qed.

Theorem filter_cols_loop_outcome : forall pred n w (t : table), width_is w t -> n <= w ->
  match filter_cols_loop pred n t with
  | Ok t' => exists keep, length keep = n /\
      (forall j, j < n -> pred (header_text t j) = Ok (VBool (nth j keep false))) /\
      t' = map (fun r => marked keep (firstn n r) ++ skipn n r) t
  | Err e => exists j, j < n /\ rbind (pred (header_text t j)) as_bool = Err e
  | Panic => exists j, j < n /\ pred (header_text t j) = Panic
  end.
Proof.
  induction n as [|n IH]; intros w t HW Hn; cbn [filter_cols_loop].
  - exists []. split; auto. split; [intros; lia|]. cbn. now rewrite map_id.
  - rewrite hdr_text_spec. destruct (rbind (pred (header_text t n)) as_bool) as [b|e|] eqn:E; cbn [rbind].
    + assert (Eb : pred (header_text t n) = Ok (VBool b)).
      { destruct (pred (header_text t n)) as [[]| |]; cbn in E; try discriminate; congruence. }
      assert (Hr : forall r, In r t -> exists x, nth_error r n = Some x /\ skipn n r = x :: skipn (S n) r).
      { intros r Hr. destruct (nth_error r n) as [x|] eqn:En.
        - exists x. split; auto. clear -En. revert r En. induction n; intros [|y r] En; cbn in *; try discriminate.
          + congruence.
          + now apply IHn.
        - apply nth_error_None in En. rewrite (HW r Hr) in En. lia. }
      destruct b.
      * specialize (IH w t HW ltac:(lia)). destruct (filter_cols_loop pred n t) as [t'|e|].
        -- destruct IH as (keep & HL & HK & ->). exists (keep ++ [true]). split; [rewrite app_length; cbn; lia|]. split.
           ++ intros j Hj. destruct (Nat.eq_dec j n) as [->|N].
              ** rewrite app_nth2 by lia. rewrite HL, Nat.sub_diag. exact Eb.
              ** rewrite app_nth1 by lia. apply HK. lia.
           ++ apply map_ext_in. intros r HIr. destruct (Hr r HIr) as (x & Ex & Es).
              rewrite (firstn_S_nth _ _ Ex), marked_app by (rewrite HL, firstn_length, (HW r HIr); lia).
              rewrite Es. cbn. now rewrite <- app_assoc.
        -- destruct IH as (j & Hj & H). exists j. split; auto. 
        -- destruct IH as (j & Hj & H). exists j. split; auto. 
      * assert (HW' : width_is (w - 1) (remove_col n t)).
        { intros r' Hr'. unfold remove_col in Hr'. apply in_map_iff in Hr'. destruct Hr' as (r & <- & HIr).
          destruct (Hr r HIr) as (x & Ex & Es).
          rewrite <- (firstn_skipn n r) at 1. rewrite Es, remove_nth_split by (rewrite firstn_length, (HW r HIr); lia).
          rewrite app_length, firstn_length, skipn_length, (HW r HIr). lia. }
        specialize (IH (w - 1) _ HW' ltac:(lia)). destruct (filter_cols_loop pred n (remove_col n t)) as [t'|e|].
        -- destruct IH as (keep & HL & HK & ->). exists (keep ++ [false]). split; [rewrite app_length; cbn; lia|]. split.
           ++ intros j Hj. destruct (Nat.eq_dec j n) as [->|N].
              ** rewrite app_nth2 by lia. rewrite HL, Nat.sub_diag. exact Eb.
              ** rewrite app_nth1 by lia. specialize (HK j ltac:(lia)). rewrite remove_col_hdr in HK by lia. exact HK.
           ++ unfold remove_col. rewrite map_map. apply map_ext_in. intros r HIr. destruct (Hr r HIr) as (x & Ex & Es).
              assert (length (firstn n r) = n) as L by (rewrite firstn_length, (HW r HIr); lia).
              rewrite (firstn_S_nth _ _ Ex), marked_app by lia. cbn [marked]. rewrite app_nil_r.
              assert (EQ : remove_nth n r = firstn n r ++ skipn (S n) r).
              { rewrite <- (firstn_skipn n r) at 1. rewrite Es. now rewrite remove_nth_split. }
              rewrite EQ. rewrite firstn_app, skipn_app, L, Nat.sub_diag. cbn [firstn].
              rewrite app_nil_r, firstn_all2 by lia. rewrite skipn_all2 by lia. reflexivity.
        -- destruct IH as (j & Hj & H). exists j. split; auto. now rewrite remove_col_hdr in H by lia.
        -- destruct IH as (j & Hj & H). exists j. split; auto. now rewrite remove_col_hdr in H by lia.
    + exists n. auto.
    + exists n. split; auto. destruct (pred (header_text t n)) as [[]| |]; cbn in E; congruence.
Qed.

Theorem filter_cols_outcome : forall pred (t : table), rectangular t ->
  match filter_cols pred t with
  | Ok t' => exists keep, length keep = cols_len t /\
      (forall j, j < cols_len t -> pred (header_text t j) = Ok (VBool (nth j keep false))) /\
      t' = map (marked keep) t
  | Err e => exists j, j < cols_len t /\ rbind (pred (header_text t j)) as_bool = Err e
  | Panic => exists j, j < cols_len t /\ pred (header_text t j) = Panic
  end.
Proof.
  intros pred t HR. unfold filter_cols.
  pose proof (@filter_cols_loop_outcome pred (cols_len t) (cols_len t) t (rectangular_width HR) (le_n _)) as H.
  destruct (filter_cols_loop pred (cols_len t) t); auto.
  destruct H as (keep & A & B & ->). exists keep. split; auto. split; auto.
  apply map_ext_in. intros r Hr. rewrite firstn_all2, skipn_all2, app_nil_r; auto; rewrite (@rectangular_width _ HR r Hr); auto.
Qed.

(** ** strings *)

Lemma filter_str_loop_outcome : forall pred s e,
  match filter_str_loop pred e s with
  | (r, Ok _) => e = Ok tt /\ (forall c, In c s -> exists b, pred c = Ok (VBool b)) /\
       r = filter (fun c => match pred c with Ok (VBool b) => b | _ => false end) s
  | (_, Err x) => e = Err x \/ exists c, In c s /\ rbind (pred c) as_bool = Err x
  | (_, Panic) => e = Panic \/ exists c, In c s /\ pred c = Panic
  end.
Proof.
  intros pred. induction s as [|c s IH]; intros e; cbn [filter_str_loop].
  - destruct e as [[]|x|]; auto. split; auto. split; [intros c []|reflexivity].
  - destruct (rbind (pred c) as_bool) as [b|x|] eqn:E.
    + assert (Eb : pred c = Ok (VBool b)).
      { destruct (pred c) as [[]| |]; cbn in E; try discriminate; congruence. }
      specialize (IH e). destruct (filter_str_loop pred e s) as [r [u|x|]].
      * destruct IH as (He & Ha & ->). split; auto. split.
        -- intros d [<-|Hd]; eauto.
        -- cbn [filter]. rewrite Eb. reflexivity.
      * destruct IH as [|(d & Hd & Ed)]; auto. right. exists d. cbn; auto.
      * destruct IH as [|(d & Hd & Ed)]; auto. right. exists d. cbn; auto.
    + specialize (IH (Err x)). destruct (filter_str_loop pred (Err x) s) as [r [u|y|]].
      * destruct IH as (He & _); discriminate.
      * right. destruct IH as [[= <-]|(d & Hd & Ed)]; [exists c|exists d]; cbn; auto.
      * destruct IH as [|(d & Hd & Ed)]; [discriminate|]. right. exists d. cbn; auto.
    + right. exists c. split; [cbn; auto|]. destruct (pred c) as [[]| |]; cbn in E; congruence.
Qed.

Theorem filter_str_outcome : forall pred s,
  match filter_str pred s with
  | Ok r => (forall c, In c s -> exists b, pred c = Ok (VBool b)) /\
       r = filter (fun c => match pred c with Ok (VBool b) => b | _ => false end) s
  | Err x => exists c, In c s /\ rbind (pred c) as_bool = Err x
  | Panic => exists c, In c s /\ pred c = Panic
  end.
Proof.
  intros pred s. unfold filter_str. pose proof (filter_str_loop_outcome pred s (Ok tt)) as H.
  destruct (filter_str_loop pred (Ok tt) s) as [r [u|x|]]; cbn [rbind].
  - tauto.
  - destruct H as [|H]; [discriminate|auto].
  - destruct H as [|H]; [discriminate|auto].
Qed.
