(** Definitions given as texts: a single one, those of a file, those of all files. *)
From Coq Require Import String List ZArith NArith Bool Arith.
From Verif Require Import Model.Base Model.Utf Model.Value Model.Ast Model.Parse Model.Registry Model.ParseTy Model.File.
Import ListNotations.
Set Implicit Arguments.

(** [str::starts_with], [str::contains] *)
Fixpoint begins (w s : str) : bool :=
  match w, s with
  | [], _ => true
  | a :: w, b :: s => N.eqb a b && begins w s
  | _ :: _, [] => false
  end.
Fixpoint within (w s : str) : bool := begins w s || match s with [] => false | _ :: s => within w s end.

Section Load.
  Variable k : lang.

  (** The parser knows the ops defined so far. *)
  Definition knows (s : defs) : lang := Lang (alpha k) (alnum k) (white k) (number k) (contains_op (df_impls s)).

  (** ogma/src/lang/defs.rs:302-375 [process_impl]: error 7 of the parser, error 8 is the help.  The value returned for [--list] is
      left out. *)
  Definition impl_text (l : loc) (t : str) (s : defs) : res unit * defs :=
    if within (lit "--help") t then (Err 8, s)
    else if within (lit " --list") t then (Ok tt, s)
    else if within (lit " --clear") t then process false s (CClear false)
    else match definition_impl (knows s) t with
         | POk _ (n, i, ps, e) =>
             process false s (CDef (Defn l (tg_str n) (option_map tg_str i) (map (fun p : tag * option tag => (tg_str (fst p), option_map tg_str (snd p))) ps) e))
         | _ => (Err 7, s)
         end.
  (** defs.rs:377-429 [process_ty]: three [todo!()]; types.rs:372-382 *)
  Definition ty_text (l : loc) (t : str) (s : defs) : res unit * defs :=
    if within (lit "--help") t then (Panic, s)
    else if within (lit " --list") t then (Panic, s)
    else if within (lit " --clear") t then (Panic, s)
    else match definition_type (knows s) t with
         | POk _ (n, b) => process false s (CDefTy (PType l (tg_str n) (plain_body b)))
         | _ => (Err 7, s)
         end.
  (** defs.rs:276-300 [process_definition] *)
  Definition process_definition (l : loc) (t : str) (s : defs) : res unit * defs :=
    if begins (lit "def ") t then impl_text l t s
    else if begins (lit "def-ty ") t then ty_text l t s
    else (Err 9, s).

  (** defs.rs:196-213 [add_from_str]: the count, and what is left behind *)
  Fixpoint add_items (path : str) (items : list item) (count : nat) (s : defs) : res nat * defs :=
    match items with
    | [] => (Ok count, s)
    | x :: items =>
        match process_definition (LFile path (it_line x)) (it_code x) s with
        | (Ok _, s) => add_items path items (S count) s
        | (Err e, s) => (Err e, s)
        | (Panic, s) => (Panic, s)
        end
    end.
  Definition add_from_str (path text : str) (s : defs) : res nat * defs :=
    match parse_file k text with
    | Ok f => add_items path (map snd (fl_types f ++ fl_impls f)) 0 s
    | Err e => (Err e, s)
    | Panic => (Panic, s)
    end.

  (** ogma-ls/workspace.rs:130-140 [def_load]: errors are ignored; the order of the files is that of a hash map. *)
  Fixpoint load_files (files : list (str * str)) (s : defs) : res unit * defs :=
    match files with
    | [] => (Ok tt, s)
    | (path, text) :: files =>
        match add_from_str path text s with
        | (Panic, s) => (Panic, s)
        | (_, s) => load_files files s
        end
    end.
  Definition def_load (files : list (str * str)) (s : defs) : res unit * defs :=
    load_files files (snd (process false s (CClear false))).
End Load.
