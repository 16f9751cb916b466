(** C59: the definition files below a directory are collected by partition, each once. *)
From Coq Require Import String List NArith Permutation Sorted.
From Verif Require Import Model.Base Model.FsMap Spec.FsMapSpec Proofs.FsMapProofs Proofs.FsMapFinal Proofs.FsMapSamples.
Import ListNotations.

(** The walk ends and no assertion fails. *)
Theorem C59_total : forall F (parse : list str -> str -> res F), (forall p t, parse p t <> Panic) ->
  forall es, distinct es -> build_fs_map parse es <> Panic.
Proof. exact build_total. Qed.
Print Assumptions C59_total.

(** It succeeds exactly if all can be read, no file fails and no directory is beside a file of its name. *)
Theorem C59_succeeds : forall F (parse : list str -> str -> res F), (forall p t, parse p t <> Panic) ->
  forall es, distinct es ->
  ((exists m, build_fs_map parse es = Ok m) <-> ~ unreadable es /\ ~ clash es /\ forall e, ~ file_fails F parse es e).
Proof. exact build_ok. Qed.
Print Assumptions C59_succeeds.

(** The error tells which of these it was. *)
Theorem C59_cause : forall F (parse : list str -> str -> res F) es e, distinct es -> build_fs_map parse es = Err e ->
  (e = 0 /\ unreadable es) \/ (e = 1 /\ clash es) \/ file_fails F parse es e.
Proof. exact build_cause. Qed.
Print Assumptions C59_cause.

(** The map holds the partitions and nothing else, in the order of paths. *)
Theorem C59_partitions : forall F (parse : list str -> str -> res F) es m, distinct es -> build_fs_map parse es = Ok m ->
  (forall p vs, In (p, vs) m <-> partition_at F parse es p vs) /\
  StronglySorted (fun a b => path_cmp (fst a) (fst b) = Lt) m.
Proof. exact build_map. Qed.
Print Assumptions C59_partitions.

(** Every definition file at any depth is in exactly one partition, once (with files told apart by their path). *)
Theorem C59_once : forall es m, distinct es -> build_fs_map (fun p _ => Ok p) es = Ok m ->
  NoDup (concat (map snd m)) /\
  forall p n, In (p ++ [n]) (concat (map snd m)) <-> exists ds t, dir_at es p ds /\ In (Some (n, File t)) ds /\ ogma_name n.
Proof. exact build_once. Qed.
Print Assumptions C59_once.

(** The order in which directories list their items only changes the order of files within a partition. *)
Theorem C59_order : forall F (parse : list str -> str -> res F), (forall p t, parse p t <> Panic) ->
  forall es es' m, distinct es -> same_node (Dir es) (Dir es') -> build_fs_map parse es = Ok m ->
  exists m', build_fs_map parse es' = Ok m' /\ Forall2 (fun a b => fst a = fst b /\ Permutation (snd a) (snd b)) m m'.
Proof. exact build_order. Qed.
Print Assumptions C59_order.

Example C59_example :
  (forall p t, keep p t <> Panic) /\ distinct sample /\ same_node (Dir sample) (Dir sample') /\
  rmap (map (fun e => (fst e, map snd (snd e)))) (build_fs_map keep sample) =
    Ok [([lit "bar"], [lit "d"]); ([lit "d.ogma"], [lit "e"]); ([lit "none"; lit "deep"], [lit "f"]);
        ([lit "zog"], [lit "b"; lit "a"]); ([lit "zog"; lit "in"], [lit "c"])] /\
  rmap (map (fun e => (fst e, map snd (snd e)))) (build_fs_map keep sample') =
    Ok [([lit "bar"], [lit "d"]); ([lit "d.ogma"], [lit "e"]); ([lit "none"; lit "deep"], [lit "f"]);
        ([lit "zog"], [lit "a"; lit "b"]); ([lit "zog"; lit "in"], [lit "c"])] /\
  build_fs_map keep (dir "bar" [file "x.ogma" "a"] :: sample) = Err 1 /\
  build_fs_map keep (sample ++ [file "t.ogma" "bad"]) = Err 7 /\
  build_fs_map keep (sample ++ [dir "t" [None]]) = Err 0.
Proof.
  split; [intros p t; unfold keep; destruct (str_eqb t (lit "bad")); discriminate|].
  split; [exact sample_distinct|]. split; [exact sample_same|]. vm_compute. auto 10.
Qed.

(** A directory without any definition file, hence without a partition, is still rejected beside a file of its name. *)
Theorem C59_empty_directory_refuted : exists es, distinct es /\ build_fs_map keep es = Err 1 /\
  forall ds fs, dir_at es [lit "a"] ds -> ogma_files ds fs -> fs = [].
Proof.
  exists [file "a.ogma" "x"; dir "a" []]. split; [distinct_tac|]. split; [vm_compute; reflexivity|].
  intros ds fs H O. apply dir_at_cons in H. destruct H as (sub & [E|[E|[]]] & H); [discriminate|].
  apply dir_at_nil in H. injection E as <-. subst. inversion O. reflexivity.
Qed.

(** The order of the files in a partition is that of the listing, which a file system may choose. *)
Theorem C59_file_order_refuted : exists es es', distinct es /\ same_node (Dir es) (Dir es') /\
  is_ok (build_fs_map keep es) = true /\ build_fs_map keep es <> build_fs_map keep es'.
Proof.
  exists sample, sample'. split; [exact sample_distinct|]. split; [exact sample_same|]. split; [vm_compute; reflexivity|].
  vm_compute. discriminate.
Qed.
