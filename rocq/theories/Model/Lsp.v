(** The language server's document store: positions counted in UTF-16 units and versioned changes. *)
From Coq Require Import List ZArith NArith Bool.
From Verif Require Import Model.Base Model.Utf.
Import ListNotations.
Set Implicit Arguments.

(** ogma-ls/lib.rs:19-32 [linech_to_idx]: the loop with its two counters. *)
Fixpoint linech_loop (line : str) (chpos co_utf16 co_utf8 : nat) : nat :=
  match line with
  | [] => co_utf8
  | ch :: line =>
      if Nat.eqb co_utf16 chpos then co_utf8
      else linech_loop line chpos (co_utf16 + len_utf16 ch) (co_utf8 + len_utf8 ch)
  end.
Definition linech_to_idx (line : str) (chpos : nat) : nat := linech_loop line chpos 0 0.

(** [str::lines] of core: pieces between line feeds, without a last empty piece; a carriage return before
    the line feed is dropped.  Whether it is also dropped at the end of a last piece that has no line feed
    depends on the version of the standard library: [bare_cr] tells. *)
Fixpoint split_lf (s : str) : list str :=
  match s with
  | [] => [[]]
  | c :: s => if (c =? 10)%N then [] :: split_lf s
              else match split_lf s with l :: ls => (c :: l) :: ls | [] => [[c]] end
  end.
Definition strip_cr (l : str) : str :=
  match rev l with c :: r => if (c =? 13)%N then rev r else l | [] => l end.
(** Lines with the byte offset at which each starts. *)
Fixpoint lines_at (bare_cr : bool) (off : nat) (pieces : list str) : list (nat * str) :=
  match pieces with
  | [] => []
  | [l] => match l with [] => [] | _ => [(off, if bare_cr then strip_cr l else l)] end
  | l :: ls => (off, strip_cr l) :: lines_at bare_cr (off + byte_len l + 1) ls
  end.
Definition str_lines (bare_cr : bool) (s : str) : list (nat * str) := lines_at bare_cr 0 (split_lf s).

Record position := Pos { p_line : nat; p_char : nat }.

(** ogma-ls/lib.rs:34-49 [pos_to_idx] *)
Definition pos_to_idx (bare_cr : bool) (s : str) (p : position) : nat :=
  match nth_error (str_lines bare_cr s) (p_line p) with
  | Some (off, line) => off + linech_to_idx line (p_char p)
  | None => byte_len s
  end.

(** lsp_types::TextDocumentContentChangeEvent: the range is absent for a change of the whole text. *)
Record change := Change { ch_range : option (position * position); ch_text : str }.

(** [String::replace_range] of alloc: panics off character boundaries or for a reversed range. *)
Definition replace_range (a b : nat) (new s : str) : res str :=
  match take_bytes a s, drop_bytes b s with
  | Some x, Some y => if Nat.leb a b then Ok (x ++ new ++ y) else Panic
  | _, _ => Panic
  end.

(** ogma-ls/workspace.rs:232-240 [apply_changes]; lib.rs:51-53 [lsp_range_to_range] *)
Definition apply_change (bare_cr : bool) (c : change) (text : str) : res str :=
  let (a, b) := match ch_range c with
                | Some (p, q) => (pos_to_idx bare_cr text p, pos_to_idx bare_cr text q)
                | None => (0, byte_len text)
                end in
  replace_range a b (ch_text c) text.
Fixpoint apply_changes (bare_cr : bool) (cs : list change) (text : str) : res str :=
  match cs with
  | [] => Ok text
  | c :: cs => let? text := apply_change bare_cr c text in apply_changes bare_cr cs text
  end.

(** ogma-ls/workspace.rs:10,184-188 [Version], [File]; 227-230 [Change].  Versions are i32. *)
Record file := File { f_text : str; f_version : Z; f_pending : list (Z * list change) }.
Definition i32_wrap (z : Z) : Z := ((z + 2147483648) mod 4294967296 - 2147483648)%Z.

(** ogma-ls/workspace.rs:190-197 [File::new] *)
Definition file_new (text : str) (version : Z) : file := File text version [].

(** ogma-ls/workspace.rs:205-225 [apply_pending] *)
Fixpoint apply_pending (bare_cr : bool) (pending : list (Z * list change)) (text : str) (version : Z) : res file :=
  match pending with
  | [] => Ok (File text version [])
  | (v, cs) :: rest =>
      if (v <? version)%Z then apply_pending bare_cr rest text version
      else if (i32_wrap (version + 1) <? v)%Z then Ok (File text version pending)
      else let? text := apply_changes bare_cr cs text in apply_pending bare_cr rest text v
  end.

(** ogma-ls/workspace.rs:199-203 [add_changes]: insertion before the first pending change with a version
    not below. *)
Fixpoint insert_pending (d : Z * list change) (pending : list (Z * list change)) : list (Z * list change) :=
  match pending with
  | [] => [d]
  | p :: rest => if (fst d <=? fst p)%Z then d :: pending else p :: insert_pending d rest
  end.
Definition add_changes (bare_cr : bool) (d : Z * list change) (f : file) : res file :=
  apply_pending bare_cr (insert_pending d (f_pending f)) (f_text f) (f_version f).

(** Notifications in the order in which they arrive (server: one at a time). *)
Fixpoint deliver (bare_cr : bool) (ds : list (Z * list change)) (f : file) : res file :=
  match ds with
  | [] => Ok f
  | d :: ds => let? f := add_changes bare_cr d f in deliver bare_cr ds f
  end.
