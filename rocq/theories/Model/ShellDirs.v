(** Working directories of the tabs of the shell. *)
From Coq Require Import String List ZArith NArith Bool Arith.
From Verif Require Import Model.Base Model.SavePath.
Import ListNotations.
Set Implicit Arguments.

(** ogma-shell/lib.rs:112-122 [RunState]: the root and the working directories of tabs.  Left out: the workspace and the paths
    of definition files. *)
Record dirs := Dirs { d_root : str; d_tabs : list (nat * str) }.

(** [HashMap::get], [HashMap::insert] *)
Fixpoint tab_get (ts : list (nat * str)) (id : nat) : option str :=
  match ts with
  | [] => None
  | (i, w) :: ts => if Nat.eqb i id then Some w else tab_get ts id
  end.
Definition tab_insert (ts : list (nat * str)) (id : nat) (w : str) : list (nat * str) :=
  (id, w) :: filter (fun t => negb (Nat.eqb (fst t) id)) ts.

(** lib.rs:193-196 [tab_wd]: with [or_insert_with] *)
Definition tab_wd (st : dirs) (id : nat) : dirs * str :=
  match tab_get (d_tabs st) id with
  | Some w => (st, w)
  | None => (Dirs (d_root st) (tab_insert (d_tabs st) id (d_root st)), d_root st)
  end.

(** A path of names, as text ([Path::to_path_buf] of the rest left by [strip_prefix]). *)
Fixpoint show_path (names : list str) : str :=
  match names with
  | [] => []
  | [n] => n
  | n :: names => n ++ slash :: show_path names
  end.

(** lib.rs:213-233 [validate_path].  [canon] is [Path::canonicalize]; error 1 is its error, error 0 "cannot move above root
    directory".  See [scrub_filepath] for a root without canonical path. *)
Definition validate_path (canon : str -> option (list str)) (st : dirs) (id : nat) (p : str) : res str :=
  let wd := match tab_get (d_tabs st) id with Some w => path_join (d_root st) w | None => d_root st end in
  match canon (path_join wd p) with
  | None => Err 1
  | Some w =>
      match canon (d_root st) with
      | None => Err 0
      | Some r => match strip_prefix r w with Some x => Ok (show_path x) | None => Err 0 end
      end
  end.

(** lib.rs:207-211 [change_working_dir] *)
Definition change_working_dir (canon : str -> option (list str)) (st : dirs) (id : nat) (p : str) : dirs * option nat :=
  match validate_path canon st id p with
  | Ok w => (Dirs (d_root st) (tab_insert (d_tabs st) id w), None)
  | Err e => (st, Some e)
  | Panic => (st, Some 0)        (* does not occur *)
  end.

(** [str::strip_prefix], [str::contains], [str::replace] with the empty text *)
Fixpoint text_after (pre s : str) : option str :=
  match pre, s with
  | [], _ => Some s
  | a :: pre, b :: s => if N.eqb a b then text_after pre s else None
  | _ :: _, [] => None
  end.
Fixpoint text_contains (pat s : str) : bool :=
  match text_after pat s with
  | Some _ => true
  | None => match s with [] => false | _ :: s => text_contains pat s end
  end.
Fixpoint text_remove (pat : str) (skip : nat) (s : str) : str :=
  match s with
  | [] => []
  | c :: t =>
      match skip with
      | S k => text_remove pat k t
      | 0 => match text_after pat s with
             | Some _ => text_remove pat (length pat - 1) t
             | None => c :: text_remove pat 0 t
             end
      end
  end.

(** lib.rs:331-347 in [parse_batch]: the file to run, and what its settings are changed to *)
Definition batch_flags (s : str) : str * option bool * option bool :=
  let (r, par) := if text_contains (lit " --no-par") s then (text_remove (lit " --no-par") 0 s, Some false) else (s, None) in
  let (r, fast) := if text_contains (lit " --no-fast-fail") r then (text_remove (lit " --no-fast-fail") 0 r, Some false) else (r, None) in
  (r, par, fast).

(** What a line does with files. *)
Inductive event :=
| Moved (err : option nat) (wd : str)                        (* cd: the error shown, the working directory shown *)
| Batch (file : str) (par fast : option bool)                (* run: the path opened, relative to the directory of the process *)
| Refused (e : nat)                                          (* run: not opened *)
| Evaluated (wd : str)                                       (* anything else that is evaluated, with its working directory *)
| Nothing.

(** lib.rs:132-190 [on_enter], 198-205 [handle_cd], 258-296 [process_seq].  [evals] tells whether the line gets as far as being
    evaluated: for [run] whether the batch file could be parsed, for other lines whether they are or contain an expression. *)
Definition on_enter (canon : str -> option (list str)) (st : dirs) (id : nat) (line : str) (evals : bool) : dirs * event :=
  match text_after (lit "cd ") line with
  | Some p =>
      let (st, e) := match p with [] => (st, None) | _ => change_working_dir canon st id p end in
      let (st, w) := tab_wd st id in (st, Moved e w)
  | None =>
      match text_after (lit "run ") line with
      | Some fl =>
          let '(f, par, fast) := batch_flags fl in
          match validate_path canon st id f with
          | Ok file => ((if evals then fst (tab_wd st id) else st), Batch file par fast)
          | Err e => (st, Refused e)
          | Panic => (st, Refused 0)     (* does not occur *)
          end
      | None => if evals then let (st, w) := tab_wd st id in (st, Evaluated w) else (st, Nothing)
      end
  end.

(** Lines entered one after the other, the file system changing in between. *)
Record entry := Entry { e_canon : str -> option (list str); e_tab : nat; e_line : str; e_evals : bool }.
Fixpoint session (st : dirs) (es : list entry) : dirs * list event :=
  match es with
  | [] => (st, [])
  | e :: es =>
      let (st, ev) := on_enter (e_canon e) st (e_tab e) (e_line e) (e_evals e) in
      let (st, evs) := session st es in (st, ev :: evs)
  end.

(** ogma/src/lang/impls/intrinsics/io.rs:101-107: the directory [ls] reads, relative to the directory of the process *)
Definition ls_path (wd : str) (arg : option str) : str := match arg with Some p => path_join wd p | None => wd end.
(** io.rs:19-26 and 302-304: the path [open] and [save] look at *)
Definition io_path (root wd p : str) : str := path_join (path_join root wd) p.
