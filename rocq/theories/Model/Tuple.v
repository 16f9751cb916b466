(** Tuple types and their names. *)
From Coq Require Import String List ZArith NArith Bool Arith.
From Verif Require Import Model.Base Model.Value Model.TableOps.
Import ListNotations.
Set Implicit Arguments.

(** ogma/src/lang/types.rs:806-816 [Tuple::tyname] *)
Definition tyname (t : ty) : str :=
  match t with
  | TNil => lit "Nil" | TBool => lit "Bool" | TNum => lit "Num" | TStr => lit "Str"
  | TTab => lit "Table" | TTabRow => lit "TableRow"
  | TDef d => td_name d
  end.

(** types.rs:818-827 [Tuple::name]: every argument with a dash, the last character popped, an underscore. *)
Definition tuple_name (args : list ty) : str :=
  removelast (lit "U_" ++ flat_map (fun a => tyname a ++ lit "-") args) ++ lit "_".

(** types.rs:829-895 [Tuple::ty]; fields are named t0, t1, ...; the source text is left out. *)
Definition tuple_ty (args : list ty) : tydef :=
  TyDef (tuple_name args)
    (TProduct (combine (map (fun i => lit "t" ++ dec i) (seq 0 (length args))) args)).

(** types.rs:917-921 [Split] *)
Inductive split := STuple (l : list split) | STy (s : str).

(** [take_till1(|c| c == '-' || c == '_')] of nom, up to the emptiness test. *)
Fixpoint till_sep (i : str) : str * str :=
  match i with
  | [] => ([], [])
  | c :: r => if (c =? 45)%N || (c =? 95)%N then ([], i)
              else let (w, r) := till_sep r in (c :: w, r)
  end.

(** types.rs:929-943: [parse_split] with [parse_tuple] inlined, and the loop of nom's [separated_list1]: it stops
    before a separator that no element follows.  Fuel above the length of the input is enough. *)
Fixpoint parse_split (fuel : nat) (i : str) : option (split * str) :=
  match fuel with
  | 0 => None
  | S fuel =>
      match i with
      | 85%N :: 95%N :: r =>
          match parse_split fuel r with
          | None => None
          | Some (x, r) =>
              let (xs, r) := parse_more fuel r in
              match r with
              | 95%N :: r => Some (STuple (x :: xs), r)
              | _ => None
              end
          end
      | _ =>
          let (w, r) := till_sep i in
          match w with [] => None | _ => Some (STy w, r) end
      end
  end
with parse_more (fuel : nat) (i : str) : list split * str :=
  match fuel with
  | 0 => ([], i)
  | S fuel =>
      match i with
      | 45%N :: r =>
          match parse_split fuel r with
          | Some (x, r) => let (xs, r) := parse_more fuel r in (x :: xs, r)
          | None => ([], i)
          end
      | _ => ([], i)
      end
  end.

(** types.rs:923-953 [Split::parse]: a tuple, and all of the text. *)
Definition split_parse (s : str) : option split :=
  match s with
  | 85%N :: 95%N :: _ =>
      match parse_split (S (length s)) s with
      | Some (x, []) => Some x
      | _ => None
      end
  | _ => None
  end.

Section Types.
  (** types.rs:364-366 [Types::get_using_str] *)
  Variable types : str -> option ty.

  (** types.rs:901-913 [Tuple::convert_split] *)
  Fixpoint convert_split (x : split) : option ty :=
    match x with
    | STuple l =>
        let fix conv (l : list split) : option (list ty) :=
          match l with
          | [] => Some []
          | x :: l => match convert_split x with
                      | Some t => match conv l with Some ts => Some (t :: ts) | None => None end
                      | None => None
                      end
          end in
        match conv l with Some args => Some (TDef (tuple_ty args)) | None => None end
    | STy s => types s
    end.

  (** types.rs:897-899 [Tuple::parse_name] *)
  Definition parse_name (s : str) : option ty :=
    match split_parse s with Some x => convert_split x | None => None end.

  (** intrinsics/mod.rs:196-212 [type_flag] given the text of the flag *)
  Definition type_flag (s : str) : option ty :=
    match s with
    | 85%N :: 95%N :: _ => match parse_name s with Some t => Some t | None => types s end
    | _ => types s
    end.
End Types.
