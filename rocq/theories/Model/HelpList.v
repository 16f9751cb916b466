(** Help for an op, and the listing of definitions. *)
From Coq Require Import String List ZArith NArith Bool Arith.
From Verif Require Import Model.Base Model.Value Model.TableCrate Model.Ast Model.Registry Model.AstGraph.
Import ListNotations.
Set Implicit Arguments.

(** ogma/src/lang/help.rs:19-27, 42-48, 61-64 [HelpMessage], [HelpParameter], [HelpExample] *)
Inductive hparam := HRequired (p : str) | HOptional (p : str) | HCustom (p : str) | HBreak.
Record help := Help { h_cmd : str; h_desc : str; h_params : list hparam; h_no_space : bool; h_flags : list (str * str); h_examples : list (str * str) }.

(** help.rs:51-58 [HelpParameter::write]; not called on a break *)
Definition write_param (p : hparam) : str :=
  match p with HRequired p | HCustom p => p | HOptional p => lit "[" ++ p ++ lit "]" | HBreak => [] end.

Definition nl : str := [10]%N.
(** ogma/src/common/err.rs:87-140 [help_as_error]: the text of the trace *)
Definition help_text (m : help) (t : option ty) : str :=
  lit "---- Input Type: " ++ match t with Some t => show_ty t | None => lit "<any>" end ++ lit " ----" ++ nl
  ++ h_desc m ++ nl ++ nl ++ lit "Usage:" ++ nl ++ lit " => " ++ h_cmd m
  ++ flat_map (fun p => match p with HBreak => nl ++ lit " => " ++ h_cmd m | _ => [] end ++ (if h_no_space m then [] else lit " ") ++ write_param p) (h_params m)
  ++ match h_flags m with
     | [] => []
     | fs => nl ++ nl ++ lit "Flags:" ++ flat_map (fun f => nl ++ lit " --" ++ fst f ++ lit ": " ++ snd f) fs
     end
  ++ match h_examples m with
     | [] => []
     | es => nl ++ nl ++ lit "Examples:" ++ flat_map (fun e => nl ++ lit " " ++ fst e ++ nl ++ lit " => " ++ snd e ++ nl) es
     end.

Fixpoint ends_nl (s : str) : bool := match s with [] => false | [c] => N.eqb c 10 | _ :: s => ends_nl s end.

Section HelpList.
  (** [sort_unstable_by_key], [sort_by] of the standard library *)
  Variable so_unstable : forall A : Type, (A -> A -> comparison) -> list A -> list A.
  Variable so : sorter.
  (** The order of the hash maps; the help, category and source of implementations *)
  Variable tys_order : list (ty * impl) -> list (ty * impl).
  Variable ops_order : impls -> impls.
  Variable hp : impl -> help.
  Variable cat : impl -> str.
  Variable src : defn -> str.

  (** ogma/src/lang/impls/mod.rs:74-79 [Keys::iter] *)
  Definition keys_iter (k : keys) : list (option ty * impl) :=
    map (fun e => (Some (fst e), snd e)) (tys_order (k_tys k)) ++ match k_any k with Some i => [(None, i)] | None => [] end.

  (** [Option<String>] in order: [None] comes first. *)
  Definition key_cmp (a b : option ty) : comparison :=
    match a, b with
    | None, None => Eq
    | None, Some _ => Lt
    | Some _, None => Gt
    | Some a, Some b => str_cmp (show_ty a) (show_ty b)
    end.
  (** impls/mod.rs:130-152 [get_help_all] *)
  Definition add_source (acc x : str) : str := acc ++ (if ends_nl acc then [] else nl) ++ nl ++ x.
  Definition get_help_all (m : impls) (op : str) : option str :=
    match alookup str_eqb op m with
    | None => None
    | Some k =>
        match map (fun e => help_text (hp (snd e)) (fst e)) (so_unstable (fun a b => key_cmp (fst a) (fst b)) (keys_iter k)) with
        | [] => None
        | x :: xs => Some (fold_left add_source xs x)
        end
    end.

  (** ogma/src/rt/process.rs:35-51 [handle_help]: [None] if help is not asked for; error 1: there is no such op.  An op that is a path
      panics (ast.rs:273-279). *)
  Definition is_help (t : term) : bool := match t with TFlag f => str_eqb (tg_str f) (lit "help") | _ => false end.
  Definition handle_help (m : impls) (e : expr) : option (res str) :=
    match ex_blocks e with
    | [] => None
    | b :: _ =>
        if existsb is_help (blk_terms b)
        then Some (let? op := blk_op b in match get_help_all m (tg_str op) with Some t => Ok t | None => Err 1 end)
        else None
    end.

  (** process.rs:11-32 [process_expression]: the help comes as an error. *)
  Inductive answer (V : Type) := Gives (v : V) | Helps (t : str) | Fails (e : nat) | Crashes.
  Arguments Gives {V}. Arguments Helps {V}. Arguments Fails {V}. Arguments Crashes {V}.
  Definition answered {A V} (r : res A) (f : A -> answer V) : answer V := match r with Ok a => f a | Err e => Fails e | Panic => Crashes end.
  Definition process_expression {P V : Type} (parse : str -> res expr) (compile : expr -> res P) (eval : P -> res V) (m : impls) (text : str) : answer V :=
    answered (parse text) (fun e =>
      match handle_help m e with
      | Some r => answered r (fun t => Helps t)
      | None => answered (compile e) (fun p => answered (eval p) (fun v => Gives v))
      end).

  (** impls/mod.rs:262-282 [iter], [iter_op] *)
  Definition iter (m : impls) : list (str * option ty * impl) := flat_map (fun e => map (fun x => (fst e, fst x, snd x)) (keys_iter (snd e))) (ops_order m).

  (** ogma/src/lang/defs.rs:452-521 [construct_def_table]: a row.  The first four characters of the source are left out; slicing a shorter source panics, but it
      always begins with [def ]. *)
  Record drow := DRow { r_name : str; r_cat : str; r_input : option str; r_loc : str; r_line : option N; r_code : option str }.
  Definition show_loc (l : loc) : str := match l with LOgma => lit "<ogma>" | LShell => lit "shell" | LFile p _ => p end.
  Definition def_row (e : str * option ty * impl) : drow :=
    let '(n, t, i) := e in
    DRow n (cat i) (option_map show_ty t) (show_loc (im_loc i)) (match im_loc i with LFile _ l => Some l | _ => None end)
         (match i with IIntrinsic _ _ => None | IDef d => Some (skipn 4 (src d)) end).
  Definition input_cmp (a b : drow) : comparison :=
    match r_input a, r_input b with
    | Some x, Some y => str_cmp x y
    | None, _ => Lt
    | _, None => Gt
    end.
  Definition name_cmp (a b : drow) : comparison := str_cmp (r_name a) (r_name b).
  Definition def_rows (m : impls) : list drow := fst (so name_cmp (fst (so input_cmp (map def_row (iter m))))).
  (** defs.rs:476-481, 518-520: the table, with its header *)
  Definition cell (t : option str) : ent := match t with Some t => EObj (VStr t) | None => ENil end.
  Definition row_cells (r : drow) : list ent :=
    [EObj (VStr (r_name r)); EObj (VStr (r_cat r)); cell (r_input r); EObj (VStr (r_loc r));
     match r_line r with Some l => ENum (num_of_Z (Z.of_N l)) | None => ENil end; cell (r_code r)].
  Definition def_table (m : impls) : list (list ent) :=
    map (fun h => EObj (VStr (lit h))) ["name"; "category"; "input"; "location"; "line"; "code"]%string :: map row_cells (def_rows m).
End HelpList.
