(** The parser of definitions of types. *)
From Coq Require Import String List ZArith NArith Bool Arith.
From Verif Require Import Model.Base Model.Utf Model.Value Model.Ast Model.Parse Model.Registry.
Import ListNotations.
Set Implicit Arguments.

(** ast.rs:476-521 [DefinitionType], [TypeVariant], [Variant], [Field], with the tags *)
Record tfield := TField { tf_name : tag; tf_ty : tag; tf_params : list tag }.
Definition tvariant : Type := (tag * option (list tfield))%type.
Inductive tbody := TbSum (vs : list tvariant) | TbProduct (fs : list tfield).

(** nom 7: [many0(ws(p))], [many1(ws(p))]; a round that takes nothing is an error *)
Fixpoint many_ws {A} (p : str -> pres A) (fuel : nat) (i : str) (acc : list A) : pres (list A) :=
  match fuel with
  | 0 => PFuel
  | S fuel =>
      match ws p i with
      | POk j a => if Nat.eqb (length j) (length i) then PErr else many_ws p fuel j (acc ++ [a])
      | PErr => POk i acc
      | PFail => PFail
      | PFuel => PFuel
      end
  end.
Definition many0_ws {A} (p : str -> pres A) (i : str) : pres (list A) := many_ws p (S (length i)) i [].
Definition many1_ws {A} (p : str -> pres A) (i : str) : pres (list A) :=
  let* (i, a) := ws p i in many_ws p (S (length i)) i [a].

Section Parse.
  Variable k : lang.
  Variable line : str.

  (** parse/mod.rs:920-946 [defty_field] *)
  Definition defty_field (i : str) : pres tfield :=
    let* (i, n) := op_ident k line i in
    let* (i, u) := cut (pchar 58 i) in
    let* (i, t) := cut (op_ident k line i) in
    if starts 60 i then
      let* (i, ps) := cut (let* (i, u) := pchar 60 i in
                           let* (i, ps) := many1_ws (op_ident k line) i in
                           let* (i, u) := ws (pchar 62) i in POk i ps) in
      POk i (TField n t ps)
    else POk i (TField n t []).
  (** parse/mod.rs:916-918 [defty_fields] *)
  Definition defty_fields (i : str) : pres (list tfield) :=
    let* (i, u) := pchar 123 i in
    let* (i, fs) := many0_ws defty_field i in
    let* (i, u) := pchar 125 i in POk i fs.
  (** parse/mod.rs:908-914 [defty_variant] *)
  Definition defty_variant (i : str) : pres tvariant :=
    let* (i, n) := ws (op_ident k line) i in
    let* (i, fs) := popt i (ws defty_fields i) in
    POk i (n, fs).
  (** parse/mod.rs:904-906 [defty_variants], with [separated_list0] of nom *)
  Fixpoint sep_variants (fuel : nat) (i : str) (acc : list tvariant) : pres (list tvariant) :=
    match fuel with
    | 0 => PFuel
    | S fuel =>
        match ws (pchar 124) i with
        | POk j u =>
            match ws defty_variant j with
            | POk j v => sep_variants fuel j (acc ++ [v])
            | PErr => POk i acc
            | PFail => PFail
            | PFuel => PFuel
            end
        | PErr => POk i acc
        | PFail => PFail
        | PFuel => PFuel
        end
    end.
  Definition defty_variants (i : str) : pres (list tvariant) :=
    match ws defty_variant i with
    | POk j v => sep_variants (S (length j)) j [v]
    | PErr => POk i []
    | PFail => PFail
    | PFuel => PFuel
    end.
  (** parse/mod.rs:900-902 [defty_name], 874-898 [def_type_inner] *)
  Definition defty_name (i : str) : pres tag := ws (fun i => let* (i, u) := ptag (lit "def-ty ") i in op_ident k line i) i.
  Definition def_type_inner (i : str) : pres (tag * tbody) :=
    let* (i, n) := defty_name i in
    let* (i, b) := match ws (ptag (lit "::")) i with
                   | POk i u => let* (i, vs) := defty_variants i in POk i (TbSum vs)
                   | _ => let* (i, fs) := defty_fields i in POk i (TbProduct fs)
                   end in
    match skip i with [] => POk i (n, b) | _ => PErr end.
End Parse.

(** parse/mod.rs:115-130 [definition_type] *)
Definition definition_type (k : lang) (line : str) : pres (tag * tbody) := def_type_inner k line line.

(** The definition as Registry.v has it *)
Definition plain_field (f : tfield) : pfield := PField (tg_str (tf_name f)) (tg_str (tf_ty f)) (map tg_str (tf_params f)).
Definition plain_body (b : tbody) : ptv :=
  match b with
  | TbSum vs => PSum (map (fun v : tvariant => (tg_str (fst v), option_map (map plain_field) (snd v))) vs)
  | TbProduct fs => PProduct (map plain_field fs)
  end.
(** types.rs:327-358 [insert_inner]; error 7 of the parser *)
Definition insert_text (k : lang) (l : loc) (s : str) (ts : types) : res (types * tydef) :=
  match definition_type k s with
  | POk _ (n, b) => insert_type ts (PType l (tg_str n) (plain_body b))
  | _ => Err 7
  end.
