(** The language server: the definition around a line of a document, and where the cursor is in it. *)
From Coq Require Import List ZArith NArith Bool.
From Verif Require Import Model.Base Model.Utf Model.Lsp.
Import ListNotations.
Set Implicit Arguments.

(** [Iterator::take_while], [Iterator::skip_while] of core. *)
Fixpoint take_while {A} (p : A -> bool) (l : list A) : list A :=
  match l with [] => [] | x :: l => if p x then x :: take_while p l else [] end.
Fixpoint skip_while {A} (p : A -> bool) (l : list A) : list A :=
  match l with [] => [] | x :: r => if p x then skip_while p r else l end.

Section Doc.
(** [bare_cr] as in Lsp.v; which characters are white space *)
Variables (bare_cr : bool) (ws : N -> bool).

(** [str::lines] *)
Definition doc_lines (text : str) : list str := map snd (str_lines bare_cr text).
(** [s.trim().is_empty()] *)
Definition blank (s : str) : bool := forallb ws s.
(** [s.starts_with('#')] *)
Definition comment (s : str) : bool := match s with c :: _ => (c =? 35)%N | [] => false end.

(** workspace.rs:69-74: the closure lets the first line pass, [f] is its state *)
Fixpoint take_post (f : bool) (l : list (nat * str)) : list (nat * str) :=
  match l with
  | [] => []
  | x :: l => if f || negb (blank (snd x)) then x :: take_post false l else []
  end.

(** ogma-ls/workspace.rs:56-86 [get_def_text], for a file that there is *)
Definition get_def_text (text : str) (line : nat) : nat * str :=
  let ls := doc_lines text in
  let lines := combine (seq 0 (length ls)) ls in
  let pre := skip_while (fun x => comment (snd x)) (rev (take_while (fun x => negb (blank (snd x))) (rev (firstn line lines)))) in
  let post := take_post true (skipn line lines) in
  let r := fold_left (fun acc x => (match fst acc with Some i => Some i | None => Some (fst x) end, snd acc ++ snd x ++ [10%N])) (pre ++ post) (None, []) in
  (match fst r with Some i => i | None => 0 end, snd r).

(** ogma-ls/server/hover.rs:24-29, server/completion.rs:22-26: the place of the cursor in the text of the definition *)
Definition place (line : nat) (code : str) (p : position) : option nat :=
  let diff := p_line p - line in
  match nth_error (doc_lines code) diff with
  | None => None
  | Some l => Some (fold_left (fun x y => x + byte_len y + 1) (firstn diff (doc_lines code)) (linech_to_idx l (p_char p)))
  end.

(** ogma-ls/server/completion.rs:21-27: what is completed, [&code\[..pos\]] *)
Definition typed (text : str) (p : position) : option (res str) :=
  let (line, code) := get_def_text text (p_line p) in
  match place line code p with
  | None => None
  | Some b => Some match take_bytes b code with Some s => Ok s | None => Panic end
  end.
End Doc.
