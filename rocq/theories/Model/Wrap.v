(** Text with colours wrapped to the width of the window, and the place of the cursor in it. *)
From Coq Require Import List NArith Bool Arith.
From Verif Require Import Model.Base.
Import ListNotations.
Set Implicit Arguments.

Section Wrap.
  (** Colours and other attributes; a cell is a character with them.  The grouping of characters with the same attributes to
      slices and spans is left out: [slice.text\[start..i\]] cuts between characters. *)
  Variable St : Type.
  Notation cell := (N * St)%type.
  (** [UnicodeWidthChar::width], 0 for control characters *)
  Variable chw : N -> nat.

  Definition is_nl (c : cell) : bool := N.eqb (fst c) 10.
  Definition is_cr (c : cell) : bool := N.eqb (fst c) 13.

  (** [cansi::line_iter] on the text without escape codes: lines end with \n or \r\n; an empty line at the end is left out *)
  Fixpoint lines_of (s : list cell) : list (list cell) :=
    match s with
    | [] => []
    | c :: s' =>
        if is_nl c then [] :: lines_of s'
        else if is_cr c && match s' with d :: _ => is_nl d | [] => false end then lines_of s'
        else match lines_of s' with [] => [[c]] | l :: ls => (c :: l) :: ls end
    end.

  (** ogma-shell/interface/mod.rs:876-895: one line; [w] is the width so far of [row] *)
  Fixpoint wrap (width w : nat) (row cs : list cell) : list (list cell) :=
    match cs with
    | [] => [row]
    | c :: cs =>
        if Nat.ltb width (w + chw (fst c)) then row :: wrap width (chw (fst c)) [c] cs
        else wrap width (w + chw (fst c)) (row ++ [c]) cs
    end.

  (** mod.rs:954 [cnv_span]: a tab is shown as four spaces *)
  Definition show_cell (c : cell) : list cell := if N.eqb (fst c) 9 then repeat (32%N, snd c) 4 else [c].

  (** mod.rs:869-906 [convert_coloured_str]; the text is taken to end with \n if it does without escape codes *)
  Definition convert (width : nat) (s : list cell) : list (list cell) :=
    map (flat_map show_cell) (flat_map (wrap width 0 []) (lines_of s)) ++
    match rev s with c :: _ => if is_nl c then [[]] else [] | [] => [] end.

  (** [Spans::width] *)
  Definition row_width (r : list cell) : nat := fold_right (fun c n => chw (fst c) + n) 0 r.

  (** mod.rs:761-776 [calculate_cursor_offset]; positions do not reach the limit of u16 *)
  Fixpoint offset_go (rows : list (list cell)) (pos w y : nat) : nat * nat :=
    match rows with
    | [] => (0, y)
    | r :: rows => if Nat.leb pos (w + row_width r) then (pos - w, y) else offset_go rows pos (w + row_width r) (S y)
    end.
  Definition cursor_offset (rows : list (list cell)) (pos : nat) : nat * nat := offset_go rows pos 0 0.

  (** mod.rs:752-759 [sum_newline_chars] *)
  Definition newline_chars (buf : list N) (pos : nat) : nat :=
    length (filter (fun c => N.eqb c 13 || N.eqb c 10) (firstn pos buf)).

  (** mod.rs:554-573, the cursor in [draw_frame]: the buffer, the place in it, and the buffer with colours *)
  Definition cursor (width : nat) (buf : list N) (pos : nat) (coloured : list cell) : nat * nat :=
    let (x, y) := cursor_offset (convert width coloured) (pos - newline_chars buf pos) in
    match rev (firstn pos buf) with
    | c :: _ => if N.eqb c 10 then (0, y + 1) else (x, y)
    | [] => (x, y)
    end.
End Wrap.
