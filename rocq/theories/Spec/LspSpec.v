(** Positions and versioned documents. *)
From Coq Require Import List ZArith NArith Bool Sorted.
From Verif Require Import Model.Base Model.Utf Model.Lsp.
Import ListNotations.

(** Length in UTF-16 units. *)
Definition utf16_len (s : str) : nat := fold_right Nat.add 0 (map len_utf16 s).

(** Text after the last line feed, and number of line feeds. *)
Definition last_line (pre : str) (line : str) : Prop :=
  ~ In 10%N line /\ (pre = line \/ exists before, pre = before ++ 10%N :: line).
Definition line_feeds (pre : str) : nat := count_occ N.eq_dec pre 10%N.

(** The position at which [pre] ends, as the protocol counts it. *)
Definition position_after (pre : str) (p : position) : Prop :=
  exists line, last_line pre line /\ p = Pos (line_feeds pre) (utf16_len line).

(** The place between [pre] and [post] is not between the carriage return and the line feed of a line end,
    nor after a carriage return that ends the text. *)
Definition not_after_cr (pre post : str) : Prop :=
  (exists a, pre = a ++ [13%N]) -> match post with [] => False | c :: _ => c <> 10%N end.

(** Applying changes one after the other: those of one delivery in order, then those of the next. *)
Fixpoint in_turn (bare_cr : bool) (cs : list change) (text : str) : res str :=
  match cs with
  | [] => Ok text
  | c :: cs => match apply_change bare_cr c text with Ok t => in_turn bare_cr cs t | r => r end
  end.
Definition apply_all (bare_cr : bool) (css : list (list change)) (text : str) : res str := in_turn bare_cr (concat css) text.

(** The changes [css] have the versions directly after [v] and were all delivered. *)
Definition delivered_run (v : Z) (css : list (list change)) (ds : list (Z * list change)) : Prop :=
  forall i cs, nth_error css i = Some cs -> In ((v + 1 + Z.of_nat i)%Z, cs) ds.

(** Changes numbered from the version after [v]. *)
Fixpoint numbered (v : Z) (css : list (list change)) : list (Z * list change) :=
  match css with [] => [] | cs :: css => ((v + 1)%Z, cs) :: numbered (v + 1) css end.

Definition vle (a b : Z * list change) : Prop := (fst a < fst b)%Z.

(** What is pending: the delivered changes above the current version, in version order. *)
Definition pending_ok (v : Z) (ds pend : list (Z * list change)) : Prop :=
  StronglySorted vle pend /\ (forall d, In d pend <-> In d ds /\ (v < fst d)%Z).

Definition i32_max : Z := 2147483647.
Definition i32_min : Z := -2147483648.

(** After the deliveries [ds] of distinct versions. *)
Definition state_after (bc : bool) (t0 : str) (v0 : Z) (ds : list (Z * list change)) (f : file) : Prop :=
  exists css, delivered_run v0 css ds /\ f_version f = (v0 + Z.of_nat (length css))%Z /\
    apply_all bc css t0 = Ok (f_text f) /\ pending_ok (f_version f) ds (f_pending f) /\
    ~ In (f_version f + 1)%Z (map fst ds).
