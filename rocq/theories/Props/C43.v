(** C43: which paths [save] and [open] accept. *)
From Coq Require Import String List ZArith NArith Arith Lia.
From Verif Require Import Model.Base Model.SavePath Spec.PathSpec Proofs.PathProofs.
Import ListNotations.

(** [save] to a relative path (debug and release builds): accepted exactly if the whole path has more names
    than parent steps. *)
Theorem C43_relative : forall ck root wd p q, q = full_path root wd p -> is_absolute q = false ->
  (Z.of_nat (length (components q)) <= 2147483647)%Z ->
  save_path ck root wd p = if Nat.ltb (parents (components q)) (normals (components q)) then Ok q else Err 0.
Proof. exact save_relative. Qed.
Print Assumptions C43_relative.

(** An absolute path is never accepted in a debug build. *)
Theorem C43_absolute_checked : forall root wd p q, q = full_path root wd p -> is_absolute q = true ->
  (Z.of_nat (length (components q)) <= 2147483647)%Z ->
  forall r, save_path true root wd p <> Ok r.
Proof. exact save_absolute_checked. Qed.
Print Assumptions C43_absolute_checked.

(** In a release build it is accepted exactly if it has more parent steps than names (the sum wraps). *)
Theorem C43_absolute : forall root wd p q, q = full_path root wd p -> is_absolute q = true ->
  (Z.of_nat (length (components q)) <= 2147483647)%Z ->
  save_path false root wd p = if Nat.ltb (normals (components q)) (parents (components q)) then Ok q else Err 0.
Proof. exact save_absolute. Qed.
Print Assumptions C43_absolute.

(** A relative path no prefix of which climbs above its start leads below the start. *)
Theorem C43_inside : forall p d, is_absolute p = false -> never_above (components p) -> below d (walk d (components p)).
Proof. exact save_inside. Qed.
Print Assumptions C43_inside.

(** [open]: accepted exactly if the canonical path lies below the canonical root; the result is the rest. *)
Theorem C43_open : forall canon root wd p rel, scrub_filepath canon root wd p = Ok rel <->
  exists r, canon root = Some r /\ canon (full_path root wd p) = Some (r ++ rel).
Proof. exact scrub_exact. Qed.
Print Assumptions C43_open.

Example C43_example :
  save_path true (lit ".") (lit ".") (lit "a/../b.csv") = Ok (lit "././a/../b.csv") /\
  components (lit "././a/../b.csv") = [CurDir; Normal (lit "a"); ParentDir; Normal (lit "b.csv")] /\
  never_above (components (lit "a/../b.csv")) /\
  walk [lit "home"] (components (lit "a/../b.csv")) = [lit "home"; lit "b.csv"] /\
  save_path true (lit ".") (lit ".") (lit "../b.csv") = Err 0 /\
  save_path true (lit ".") (lit ".") (lit "/etc/b") = Err 0.
Proof.
  do 2 (split; [vm_compute; reflexivity|]). split; [|vm_compute; auto].
  intros a b E. change (components (lit "a/../b.csv")) with [Normal (lit "a"); ParentDir; Normal (lit "b.csv")] in E.
  do 3 (destruct a as [|? a]; [cbn; lia|injection E as <- E]). destruct a; [cbn; lia|discriminate].
Qed.

Example C43_example_open :
  let canon s := if str_eqb s (lit ".") then Some [lit "r"] else if str_eqb s (lit "././x/f") then Some [lit "r"; lit "y"; lit "f"] else None in
  scrub_filepath canon (lit ".") (lit ".") (lit "x/f") = Ok [lit "y"; lit "f"] /\
  scrub_filepath canon (lit ".") (lit ".") (lit "zog") = Err 1.
Proof. vm_compute. auto. Qed.

(** Finding: a path that climbs first and descends later is accepted and leads out of the root. *)
Theorem C43_escape_refuted : exists d p q, save_path true (lit ".") (lit ".") p = Ok q /\
  is_absolute p = false /\ ~ below (walk d (components (lit "."))) (walk d (components q)).
Proof.
  exists [lit "home"; lit "me"], (lit "../other/secret"), (lit "././../other/secret").
  split; [vm_compute; reflexivity|]. split; [reflexivity|]. intros [rest H].
  vm_compute in H. discriminate.
Qed.
Print Assumptions C43_escape_refuted.

(** Finding: in a release build an absolute path that starts with enough parent steps (no-ops at the file
    system root) is accepted. *)
Theorem C43_absolute_refuted : exists d p q, save_path false (lit ".") (lit ".") p = Ok q /\
  walk d (components q) = [lit "etc"; lit "passwd"].
Proof. exists [lit "home"], (lit "/../../../etc/passwd"), (lit "/../../../etc/passwd"). vm_compute. auto. Qed.
Print Assumptions C43_absolute_refuted.
