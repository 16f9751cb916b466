(** Outline of a definition file: comments, directives, items. *)
From Coq Require Import String List ZArith NArith Bool Arith.
From Verif Require Import Model.Base Model.Utf Model.Ast Model.Parse.
Import ListNotations.
Set Implicit Arguments.

Definition nl : N := 10.
Definition cr : N := 13.

(** [str::lines]: the text of each line with the line ending that follows it. *)
Fixpoint chop (s : str) : list (str * str) :=
  match s with
  | [] => []
  | c :: s =>
      if N.eqb c nl then ([], [nl]) :: chop s
      else match chop s with
           | [] => [([c], [])]
           | (l, e) :: r =>
               match l, e with
               | [], [_] => if N.eqb c cr then ([], [cr; nl]) :: r else ([c], e) :: r
               | _, _ => (c :: l, e) :: r
               end
           end
  end.
Definition unchop (ls : list (str * str)) : str := flat_map (fun le => fst le ++ snd le) ls.

(** parse/file.rs:28-37 [Directive], 50-72 [Import], [Prefix]; tags as text *)
Inductive prefix := PNone | PRoot | PPlugins.
Record import := Import { im_prefix : prefix; im_path : list str; im_glob : str }.
Inductive directive := NoParallelise | FailFast | DImport (is : list import) | DExport (gs : list str).
(** parse/file.rs:39-48 [Item], 4-26 [File] *)
Record item := Item { it_doc : option str; it_code : str; it_line : N }.
Record file := File {
  fl_doc : option str; fl_dirs : list directive; fl_types : list (str * item); fl_impls : list (str * item); fl_exprs : list item }.

Section File.
  Variable k : lang.

  (** [str::trim_start], [trim] *)
  Fixpoint trim_start (s : str) : str := match s with c :: s' => if white k c then trim_start s' else s | [] => [] end.
  Definition trim (s : str) : str := rev (trim_start (rev (trim_start s))).

  (** parse/file.rs:223-241 [doc_comment] *)
  Fixpoint doc_go (rest : str) (ls : list (str * str)) : list str * str :=
    match ls with
    | (l, e) :: ls' =>
        match trim l with
        | c :: d => if N.eqb c 35 then let (ds, t) := doc_go (e ++ unchop ls') ls' in (trim d :: ds, t) else ([], rest)
        | [] => ([], rest)
        end
    | [] => ([], rest)
    end.
  Fixpoint join (ds : list str) : str :=
    match ds with [] => [] | [d] => d | d :: ds => d ++ nl :: join ds end.
  Definition doc_comment (text : str) : str * str := let (ds, t) := doc_go text (chop text) in (join ds, t).
  Definition some_doc (d : str) : option str := match d with [] => None | _ => Some d end.

  (** parse/file.rs:343-368 [split_items]: start and end of each item *)
  Fixpoint split_go (pos : nat) (ls : list (str * str)) (new : bool) (ss : list (nat * nat)) : res (list (nat * nat)) :=
    match ls with
    | [] => Ok (rev ss)
    | (l, e) :: ls =>
        let next := pos + length l + length e in
        if blank k l then split_go next ls true ss
        else if new then split_go next ls false ((pos, pos + length l) :: ss)
        else match ss with
             | (s, _) :: ss => split_go next ls false ((s, pos + length l) :: ss)
             | [] => Panic
             end
    end.
  Definition split_items (text : str) : res (list (nat * nat)) := split_go 0 (chop text) true [].
  Definition cut_out (text : str) (se : nat * nat) : str := firstn (snd se - fst se) (skipn (fst se) text).

  (** nom 7: [space0], [space1], [line_ending], [take_till1], [separated_list1] *)
  Definition sp (c : N) : bool := N.eqb c 32 || N.eqb c 9.
  Definition space0 (i : str) : str := snd (span sp i).
  Definition space1 (i : str) : pres str := span1 sp i.
  Definition line_ending (i : str) : pres str :=
    match ptag [nl] i with PErr => ptag [cr; nl] i | r => r end.
  Section Sep.
    Variables (A B : Type) (sep : str -> pres A) (p : str -> pres B).
    Fixpoint sep_go (fuel : nat) (i : str) (acc : list B) : pres (list B) :=
      match fuel with
      | 0 => PFuel
      | S fuel =>
          match sep i with
          | PErr => POk i acc
          | PFail => PFail
          | PFuel => PFuel
          | POk i1 _ =>
              match p i1 with
              | PErr => POk i acc
              | PFail => PFail
              | PFuel => PFuel
              | POk i2 b => if Nat.eqb (length i2) (length i) then PErr else sep_go fuel i2 (acc ++ [b])
              end
          end
      end.
    Definition sep1 (i : str) : pres (list B) := let* (i, b) := p i in sep_go (S (length i)) i [b].
  End Sep.

  (** parse/file.rs:298-307 [glob], 288-296 [exports], 309-341 [imports], [import] *)
  Definition glob (i : str) : pres str := span1 (fun c => negb (white k c || N.eqb c 41)) i.
  Definition in_parens {A} (p : str -> pres A) (i : str) : pres (list A) :=
    let* (i, u) := pchar 40 i in
    let* (i, xs) := sep1 space1 (fun i => p (space0 i)) i in
    let* (i, u) := pchar 41 (space0 i) in
    POk i xs.
  Definition exports (i : str) : pres (list str) := in_parens glob i.
  (** Of the tag made for a component only the text is kept; what follows the name in it is dropped (file.rs:331). *)
  Definition component (p : str) : pres str :=
    if str_eqb p (lit "..") then POk [] p
    else let* (i, t) := op_ident k p p in POk i (tg_str t).
  Fixpoint components (ps : list str) : pres (list str) :=
    match ps with
    | [] => POk [] []
    | p :: ps => let* (i, c) := component p in let* (i, cs) := components ps in POk i (c :: cs)
    end.
  Definition import_p (i : str) : pres import :=
    let (i, pre) := match strip (lit "//") i with
                    | Some j => (j, PPlugins)
                    | None => match strip (lit "/") i with Some j => (j, PRoot) | None => (i, PNone) end
                    end in
    let* (i, ps) := sep1 (pchar 47) (span1 (fun c => negb (white k c || N.eqb c 41 || N.eqb c 47))) i in
    let* (j, g) := glob (last ps []) in
    let* (j, path) := components (removelast ps) in
    POk i (Import pre path g).
  Definition imports (i : str) : pres (list import) := in_parens import_p i.

  (** parse/file.rs:259-286 [directive], 243-257 [directive_line] *)
  Definition directive_p (i : str) : pres directive :=
    let i := space0 i in
    match strip (lit "no-parallelise") i with
    | Some j => POk j NoParallelise
    | None =>
        match strip (lit "fail-fast") i with
        | Some j => POk j FailFast
        | None =>
            match strip (lit "import") i with
            | Some j => let* (j, is) := imports j in POk j (DImport is)
            | None =>
                match strip (lit "export") i with
                | Some j => let* (j, gs) := exports j in POk j (DExport gs)
                | None => PErr
                end
            end
        end
    end.
  Definition directive_line (i : str) : pres (list directive) :=
    let* (i, u) := pchar 91 (trim_start i) in
    let* (i, ds) := sep1 space1 directive_p i in
    let* (i, u) := cut (pchar 93 (space0 i)) in
    POk i ds.

  (** parse/file.rs:142-154: directive lines *)
  Fixpoint dirs_go (fuel : nat) (text : str) (ds : list directive) : pres (list directive) :=
    match fuel with
    | 0 => PFuel
    | S fuel =>
        match popt text (let* (i, d) := directive_line text in let* (i, u) := cut (line_ending i) in POk i d) with
        | POk t (Some d) => dirs_go fuel t (ds ++ d)
        | POk t None => POk t ds
        | PErr => PErr
        | PFail => PFail
        | PFuel => PFuel
        end
    end.

  (** parse/file.rs:163-173: number of the line at which the rest of the file begins *)
  Definition count_nl (s : str) : N := N.of_nat (length (filter (N.eqb nl) s)).
  Definition line_num (before : str) : res N := if N.ltb (count_nl before + 1) 65536 then Ok (count_nl before + 1)%N else Panic.

  Definition starts_with (p s : str) : bool := match strip p s with Some _ => true | None => false end.
  (** parse/mod.rs:900-902 [defty_name] *)
  Definition defty_name (code : str) : pres tag := ws (fun i => let* (i, u) := ptag (lit "def-ty ") i in op_ident k code i) code.

  (** parse/file.rs:175-212: one item, at [before] in the file; [mv]: it gets the comment of the file.  [trim] of blank text is
      the empty text at its start. *)
  Inductive kind := KType (name : str) | KImpl (name : str) | KExpr.
  Definition one_item (before it : str) (mv : bool) (doc : option str) : res (kind * item) :=
    let (d, rest) := doc_comment it in
    let code := trim rest in
    let doc := if mv then doc else some_doc d in
    let at_ := if blank k rest then length it - length rest else length it - length (trim_start rest) in
    let num := line_num (before ++ firstn at_ it) in
    if starts_with (lit "def-ty") code then
      match defty_name code with
      | POk _ n => let? l := num in Ok (KType (tg_str n), Item doc code l)
      | PFuel => Panic
      | _ => Err 0
      end
    else if starts_with (lit "def") code then
      match def_op k code code with
      | POk _ n => let? l := num in Ok (KImpl (tg_str n), Item doc code l)
      | PFuel => Panic
      | _ => Err 0
      end
    else let? l := num in Ok (KExpr, Item doc code l).

  Fixpoint all_items (head text : str) (items : list (nat * nat)) (mv : bool) (doc : option str) : res (list (kind * item) * option str) :=
    match items with
    | [] => Ok ([], doc)
    | se :: items =>
        let? x := one_item (head ++ firstn (fst se) text) (cut_out text se) mv doc in
        let? r := all_items head text items false (if mv then None else doc) in
        Ok (x :: fst r, snd r)
    end.

  (** parse/file.rs:130-221 [file] *)
  Definition parse_file (text : str) : res file :=
    let (d, body) := doc_comment (trim_start text) in
    let doc := some_doc d in
    match dirs_go (S (length body)) body [] with
    | POk body dirs =>
        let mv := match dirs with [] => negb (starts_with [nl; nl] body) | _ => false end in
        let head := firstn (length text - length body) text in
        let? items := split_items body in
        let? r := all_items head body items mv doc in
        Ok (File (snd r) dirs
             (flat_map (fun x => match x with (KType n, i) => [(n, i)] | _ => [] end) (fst r))
             (flat_map (fun x => match x with (KImpl n, i) => [(n, i)] | _ => [] end) (fst r))
             (flat_map (fun x => match x with (KExpr, i) => [i] | _ => [] end) (fst r)))
    | PFuel => Panic
    | _ => Err 0
    end.
End File.
