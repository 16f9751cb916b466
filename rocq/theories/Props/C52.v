(** C52: outputs and scrolling. *)
From Coq Require Import String List ZArith NArith.
From Verif Require Import Model.Base Model.Shell Spec.ShellSpec Proofs.OutputsProofs.
Import ListNotations.

(** No sequence of additions, resizes and scrolls (by less than 65536 lines) panics. *)
Theorem C52_total : forall h ops w limit,
  (forall n, In (OScroll n) ops -> (Z.abs n <= 65535)%Z) ->
  exists o, output_steps h ops (outputs_new w limit) = Ok o.
Proof. exact outputs_total. Qed.
Print Assumptions C52_total.

(** The outputs kept are the latest [limit] written, in order. *)
Theorem C52_latest : forall h ops w limit o, output_steps h ops (outputs_new w limit) = Ok o ->
  map fst (o_items o) = lastn limit (written ops).
Proof. exact outputs_keep_latest. Qed.
Print Assumptions C52_latest.

(** The height of each output is that at the width last set, less the scroll bar. *)
Theorem C52_heights : forall h ops w limit o, output_steps h ops (outputs_new w limit) = Ok o ->
  o_width o = last_width w ops /\
  forall text n, In (text, n) (o_items o) -> exists theme, n = h text (last_width w ops - 1) theme.
Proof. exact heights_current. Qed.
Print Assumptions C52_heights.

(** The scroll position is a line of the content. *)
Theorem C52_scroll : forall h ops w limit o, output_steps h ops (outputs_new w limit) = Ok o ->
  o_scroll o <= outputs_height o - 1.
Proof. exact scroll_in_range. Qed.
Print Assumptions C52_scroll.

(** The scroll bar lies in its area, whatever the two floating point computations give. *)
Theorem C52_bar : forall area height bar off y hgt, 1 <= area ->
  scroll_location area height bar off = (y, hgt) -> 1 <= hgt /\ y + hgt <= area.
Proof. exact scroll_bar_inside. Qed.
Print Assumptions C52_bar.

Example C52_example :
  let h := fun (s : str) (_ _ : nat) => length s in
  let ops := [OAdd (lit "abc") 0; OAdd (lit "defgh") 0; OScroll 5; OAdd (lit "i") 0; OScroll 25; OWidth 30 0; OScroll (-5)] in
  exists o, output_steps h ops (outputs_new 20 2) = Ok o /\ o_items o = [(lit "defgh", 5); (lit "i", 1)] /\ o_scroll o = 0 /\
  exists o', output_steps h (firstn 5 ops) (outputs_new 20 2) = Ok o' /\ o_scroll o' = 5 /\ outputs_height o' = 6.
Proof. vm_compute. eauto 10. Qed.

(** Finding: with an area of no height the bar is still one line high, so outside. *)
Theorem C52_no_area_refuted : exists height bar off y hgt,
  scroll_location 0 height bar off = (y, hgt) /\ 0 < y + hgt.
Proof. exists 5, 0, 0. vm_compute. eauto 10. Qed.
Print Assumptions C52_no_area_refuted.
