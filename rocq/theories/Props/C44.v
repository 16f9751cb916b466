(** C44: printing a table shows its ends and says how much is left out. *)
From Coq Require Import String List ZArith NArith Arith.
From Verif Require Import Model.Base Model.Value Model.TableCrate Model.Print Spec.TableSpec Spec.PrintSpec
  Proofs.PrintProofs.
Import ListNotations.

(** A table with a header: up to 29 data rows all are shown, else the first five and the last five around
    a marker with the number of rows left out.  Rows show up to 7 cells whole, else three at each end
    ([shows_row]). *)
Theorem C44_header : forall h (d : table), rectangular (h :: d) -> 1 <= length h ->
  exists head body, print_table true (h :: d) = Ok (PTable (Some head) body) /\ shows_row true h head /\
    if Nat.leb (length d) 29 then Forall2 (shows_row false) d body
    else exists front omitted back bf bb, d = front ++ omitted ++ back /\ length front = 5 /\ length back = 5 /\
         body = bf ++ (CRowsElided (length omitted) :: repeat CDots (length head - 1)) :: bb /\
         Forall2 (shows_row false) front bf /\ Forall2 (shows_row false) back bb.
Proof. exact print_header. Qed.
Print Assumptions C44_header.

(** A table not marked as having a header: the number stated is one more than the number left out. *)
Theorem C44_no_header : forall h (d : table), rectangular (h :: d) -> 1 <= length h ->
  exists body, print_table false (h :: d) = Ok (PTable None body) /\
    if Nat.leb (length (h :: d)) 30 then Forall2 (shows_row false) (h :: d) body
    else exists front omitted back bf bb w, h :: d = front ++ omitted ++ back /\ length front = 5 /\ length back = 6 /\
         body = bf ++ (CRowsElided (length omitted + 1) :: repeat CDots w) :: bb /\
         Forall2 (shows_row false) front bf /\ Forall2 (shows_row false) back bb.
Proof. exact print_no_header. Qed.
Print Assumptions C44_no_header.

(** All printed rows have the same number of cells. *)
Theorem C44_width : forall header (t : table) head body, rectangular t -> print_table header t = Ok (PTable head body) ->
  Forall (fun r => length r = Nat.min (cols_len t) 7) body /\
  match head with Some r => length r = Nat.min (cols_len t) 7 | None => True end.
Proof. exact print_same_width. Qed.
Print Assumptions C44_width.

Definition numbers (rows cols : nat) : table :=
  map (fun i => map (fun j => ENum (Z.of_nat (100 * i + j))) (seq 0 cols)) (seq 0 rows).

Example C44_example : exists head body, print_table true (numbers 32 9) = Ok (PTable (Some head) body) /\
  length body = 11 /\ nth 5 body [] = CRowsElided 21 :: repeat CDots 6 /\ nth 3 head CDots = CColsElided 3 /\
  nth 4 body [] = [CEnt (ENum 500); CEnt (ENum 501); CEnt (ENum 502); CDots; CEnt (ENum 506); CEnt (ENum 507); CEnt (ENum 508)]%Z /\
  hd CDots (nth 6 body []) = CEnt (ENum 2700%Z).
Proof. eexists _, _. vm_compute. repeat split; reflexivity. Qed.

(** Finding: without header, 31 rows print as 11 rows and a marker saying 21. *)
Theorem C44_count_refuted : exists t body n, rectangular t /\ print_table false t = Ok (PTable None body) /\
  In (CRowsElided n :: [CDots]) body /\ length t = 31 /\ length body = 12 /\ n = 21.
Proof.
  exists (numbers 31 2). eexists _, _. split.
  - intros r1 r2 H1 H2. unfold numbers in *. apply in_map_iff in H1 as (? & <- & _). apply in_map_iff in H2 as (? & <- & _).
    now rewrite !map_length.
  - split; [vm_compute; reflexivity|]. split; [do 5 right; left; reflexivity|]. vm_compute. auto.
Qed.
Print Assumptions C44_count_refuted.
