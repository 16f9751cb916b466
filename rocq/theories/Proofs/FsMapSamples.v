From Coq Require Import String List NArith Permutation.
From Verif Require Import Model.Base Model.FsMap Spec.FsMapSpec Proofs.FsMapProofs.
Import ListNotations.

Lemma distinct_check : forall es, Forall (fun d => NoDup (names (snd d))) (preorder [] (Dir es)) -> distinct es.
Proof.
  intros es H p ds Hd. rewrite Forall_forall in H. apply (H (p, ds)).
  apply (in_preorder (Dir es) es _ _ _ eq_refl). exists p. auto.
Qed.

Definition file (n t : string) : option (str * node) := Some (lit n, File (Some (lit t))).
Definition dir (n : string) (es : listing) : option (str * node) := Some (lit n, Dir es).

(** A parser keeping path and text, failing on the text [bad]. *)
Definition keep (p : list str) (t : str) : res (list str * str) := if str_eqb t (lit "bad") then Err 7 else Ok (p, t).

Definition sample : listing :=
  [dir "zog" [file "2.ogma" "b"; dir "in" [file "x.ogma" "c"]; file "1.ogma" "a"; file "1.txt" "bad"];
   file "bar.ogma" "d"; file ".ogma" "bad"; dir "d.ogma" [file "q.v.ogma" "e"]; dir "none" [dir "deep" [file "y.ogma" "f"]]].
Definition sample' : listing :=
  [file "bar.ogma" "d"; file ".ogma" "bad"; dir "none" [dir "deep" [file "y.ogma" "f"]]; dir "d.ogma" [file "q.v.ogma" "e"];
   dir "zog" [file "1.ogma" "a"; file "1.txt" "bad"; file "2.ogma" "b"; dir "in" [file "x.ogma" "c"]]].

Ltac distinct_tac := apply distinct_check; cbn; repeat (constructor; [repeat constructor; cbn; intuition discriminate|]); constructor.
Lemma sample_distinct : distinct sample.
Proof. distinct_tac. Qed.

Lemma same_refl : forall a, same_node a a.
Proof.
  induction a as [t|ds IH|] using node_rec'; try constructor. apply same_dir with (ds1 := ds); auto.
  induction ds as [|[[n nd]|] ds IHds]; constructor.
  - constructor. apply (IH n). cbn; auto.
  - apply IHds. intros m x I. apply (IH m). cbn; auto.
  - constructor.
  - apply IHds. intros m x I. apply (IH m). cbn; auto.
Qed.

Lemma sample_same : same_node (Dir sample) (Dir sample').
Proof.
  unfold sample, sample'.
  eapply same_dir.
  - etransitivity; [apply (Permutation_app_comm [_])|]. cbn [app].
    apply perm_skip. apply perm_skip. apply perm_swap.
  - repeat (constructor; [first [constructor; apply same_refl|idtac]|]); [|constructor].
    constructor. eapply same_dir.
    + apply (Permutation_app_comm [_; _] [_; _]).
    + cbn [app]. repeat (constructor; [constructor; apply same_refl|]). constructor.
Qed.
