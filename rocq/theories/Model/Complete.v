(** The language server: the items offered to complete a line. *)
From Coq Require Import String List ZArith NArith Bool Arith.
From Verif Require Import Model.Base Model.Utf Model.Highlight.
Import ListNotations.
Set Implicit Arguments.

(** [str::char_indices] *)
Fixpoint char_indices (off : nat) (s : str) : list (nat * N) :=
  match s with [] => [] | c :: s => (off, c) :: char_indices (off + len_utf8 c) s end.

(** ogma-ls/completion.rs:149 [esc] *)
Definition esc (c : N) : bool := N.eqb c 34 || N.eqb c 39.
(** ogma-ls/completion.rs:152-161: the quote that is open and where it is *)
Fixpoint unmatched (l : list (nat * N)) (m : option N) (i : nat) : option N * nat :=
  match l with
  | [] => (m, i)
  | (idx, ch) :: l =>
      match m with
      | Some c => if N.eqb c ch then unmatched l None i else unmatched l m i
      | None => if esc ch then unmatched l (Some ch) idx else unmatched l None i
      end
  end.
(** ogma-ls/completion.rs:164-171: back to a space *)
Fixpoint word_start (l : list (nat * N)) (i : nat) : nat :=
  match l with [] => i | (idx, ch) :: l => if N.eqb ch 32 then i else word_start l idx end.
(** ogma-ls/completion.rs:148-176 [path_component].  With nothing after the last space [i] is still 0 there, and the whole line is taken. *)
Definition path_component (line : str) : res str :=
  let l := char_indices 0 line in
  let (m, i) := unmatched l None 0 in
  let i := match m with None => word_start (rev l) 0 | Some _ => i end in
  slice_bytes i (byte_len line) line.

(** ogma-ls/completion.rs:18-30 [Kind], 9-16 [Def]; the documentation is left out *)
Inductive kind := KImpl | KType | KFile | KDir | KLit.
Definition def : Type := (str * kind)%type.

(** Paths are the names they are made of, on Unix: [Path::components] leaves out empty names and dots. *)
Fixpoint names_at (cur : str) (s : str) : list str :=
  match s with
  | [] => [cur]
  | c :: s => if N.eqb c 47 then cur :: names_at [] s else names_at (cur ++ [c]) s
  end.
Definition plain (n : str) : bool := match n with [] => false | [46%N] => false | _ => true end.
Definition names (s : str) : list str := filter plain (names_at [] s).
(** [Path::join], [Path::parent] *)
Definition join (wd : list str) (s : str) : list str := match s with 47%N :: _ => names s | _ => wd ++ names s end.
Definition parent (p : list str) : option (list str) := match p with [] => None | _ => Some (removelast p) end.

Section Fs.
(** [is_dir]; [read_dir], with what becomes of each entry: an error, or its name and whether it is a directory *)
Variables (is_dir : list str -> bool) (read_dir : list str -> option (list (option (str * bool)))).

(** ogma-ls/completion.rs:121-146 [path_completions] *)
Definition path_completions (wd : list str) (line : str) : res (list def) :=
  let? w := path_component line in
  let path := join wd w in
  Ok match (if is_dir path then Some path else parent path) with
     | None => []
     | Some d =>
         match read_dir d with
         | None => []
         | Some es => concat (map (fun e : option (str * bool) => match e with Some (n, b) => [(n, if b then KDir else KFile)] | None => [] end) es)
         end
     end.

(** ogma-ls/completion.rs:33-40 [Items] *)
Definition IMPLS : N := 1.
Definition TYPES : N := 2.
Definition PATHS : N := 4.
Definition SPEC_LIT : N := 8.
Definition contains (x y : N) : bool := N.eqb (N.land x y) y.

(** ogma-ls/completion.rs:178-197 [spec_literal_completions] *)
Definition spec_literals : list def := [(lit "#t", KLit); (lit "#f", KLit); (lit "#i", KLit)].

(** ogma-ls/workspace.rs:143-166 [impls], 168-185 [types]: the names *)
Variables (impls types : list str).

(** ogma-ls/completion.rs:99-119 [cmpls] *)
Definition cmpls (line : str) (wd : option (list str)) (items : N) : res (list def) :=
  let? r := match wd with Some p => if contains items PATHS then path_completions p line else Ok [] | None => Ok [] end in
  let r := if contains items IMPLS then r ++ map (fun n => (n, KImpl)) impls else r in
  let r := if contains items TYPES then r ++ map (fun n => (n, KType)) types else r in
  Ok (if contains items SPEC_LIT then r ++ spec_literals else r).

(** ogma-ls/completion.rs:54-76 [complete_completions], by the node at the last byte; fields, variants and type parameters are left out of
    [ntype] *)
Definition complete_completions (line : str) (wd : option (list str)) (node : option ntype) : res (option (list def)) :=
  match node with
  | None => Ok None
  | Some NCommand => let? r := cmpls line wd IMPLS in Ok (Some r)
  | Some NType => let? r := cmpls line wd TYPES in Ok (Some r)
  | Some NIdent => let? r := cmpls line wd (N.lor (N.lor IMPLS PATHS) SPEC_LIT) in Ok (Some r)
  | Some NPound => let? r := cmpls line wd SPEC_LIT in Ok (Some r)
  | Some (NNum | NVar | NFlag | NParameter) => Ok None
  end.

(** ogma/src/lang/syntax/parse/mod.rs: [Expecting] *)
Inductive expecting := XNone | XImpl | XTerm | XType | XSpec | XPath.

(** ogma-ls/completion.rs:78-97 [incomplete_completions] *)
Definition incomplete_completions (line : str) (wd : option (list str)) (x : expecting) : res (option (list def)) :=
  match x with
  | XImpl => let? r := cmpls line wd IMPLS in Ok (Some r)
  | XType => let? r := cmpls line wd TYPES in Ok (Some r)
  | XTerm => let? r := cmpls line wd (N.lor (N.lor IMPLS PATHS) SPEC_LIT) in Ok (Some r)
  | XSpec => let? r := cmpls line wd SPEC_LIT in Ok (Some r)
  | XNone => Ok None
  | _ => Panic
  end.
End Fs.
