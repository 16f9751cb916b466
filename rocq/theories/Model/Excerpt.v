(** What an error shows of the source. *)
From Coq Require Import String List ZArith NArith Bool Arith.
From Verif Require Import Model.Base Model.Utf Model.Lsp.
Import ListNotations.
Set Implicit Arguments.

Section Excerpt.
  Variable white : N -> bool.     (* [char::is_whitespace] of core *)
  Variable bare_cr : bool.        (* see Lsp.v *)

  (** ogma/src/common/err.rs:815-816 [tabsize] and the sums over it *)
  Definition tabsize (c : N) : nat := if N.eqb c 9 then 4 else 1.
  Definition columns (s : str) : nat := fold_right (fun c n => tabsize c + n) 0 s.
  (** [take_while], [str::trim_end] of core *)
  Fixpoint leading (s : str) : str := match s with c :: s => if white c then c :: leading s else [] | [] => [] end.
  Fixpoint drop_white (s : str) : str := match s with c :: s' => if white c then drop_white s' else s | [] => [] end.
  Definition trim_end (s : str) : str := rev (drop_white (rev s)).

  (** err.rs:801-838 [trace_code_lines]: the text of a line and the columns at which marking it starts and ends.
      The offsets of lines are those of [str::lines]. *)
  Definition mark_line (code : str) (start stop : nat) (l : nat * str) : res (option (str * nat * nat)) :=
    let (off, line) := l in
    let off_end := off + byte_len line in
    if Nat.ltb off_end start || Nat.leb stop off then Ok None
    else
      let? s := (if Nat.leb off start then let? t := slice_bytes off start code in Ok (columns t)
                 else Ok (columns (leading line))) in
      let? e := (if Nat.leb stop off_end then let? t := slice_bytes off stop code in Ok (columns t)
                 else if Nat.eqb off_end start then Ok (s + 1)
                 else Ok (columns (trim_end line))) in
      Ok (Some (line, s, e)).
  Fixpoint mark_lines (code : str) (start stop : nat) (ls : list (nat * str)) : res (list (str * nat * nat)) :=
    match ls with
    | [] => Ok []
    | l :: ls =>
        let? x := mark_line code start stop l in
        let? r := mark_lines code start stop ls in
        Ok (match x with Some m => m :: r | None => r end)
    end.
  Definition trace_code_lines (code : str) (start stop : nat) : res (list (str * nat * nat)) :=
    mark_lines code start stop (str_lines bare_cr code).

  (** err.rs:747-795 [Trace::print]: the column given with the location, the lines of source, and the line of marks below
      them: how far it is indented, and how many marks.  Left out: colours, the location and the description.
      Numbers are [N] for the bound of 10_000. *)
  Record excerpt := Excerpt { x_col : nat; x_lines : list str; x_marks : option (N * N) }.
  Definition least (ls : list (str * nat * nat)) : N := fold_left (fun x l => N.min x (N.of_nat (snd (fst l)))) ls 10000%N.
  Definition greatest (ls : list (str * nat * nat)) : N := fold_left (fun y l => N.max y (N.of_nat (snd l))) ls 0%N.
  Definition print_trace (code : str) (start len : nat) : res excerpt :=
    let? ls := (if Nat.ltb 0 len then trace_code_lines code start (start + len)
                else Ok (map (fun l => (snd l, 0, 0)) (str_lines bare_cr code))) in
    Ok (Excerpt (match ls with (_, s, _) :: _ => s | [] => 0 end) (map (fun l => fst (fst l)) ls)
          (if N.ltb (least ls) (greatest ls) then Some (least ls, greatest ls - least ls)%N else None)).

  (** parse/mod.rs:245-264 in [convert_parse_error]: where parsing stopped, and how much is marked *)
  Definition parse_trace (source : str) (start len : nat) : res excerpt :=
    print_trace source start (if Nat.eqb len 0 && negb (match source with [] => true | _ => false end) then 1 else len).
End Excerpt.
