(** The text with types that [typify] shows. *)
From Coq Require Import String List ZArith NArith Bool Arith.
From Verif Require Import Model.Base Model.Value Model.Ast Model.Registry Model.AstGraph Model.Locals.
Import ListNotations.
Set Implicit Arguments.

(** ogma/src/eng/annotate.rs:104-131 [fmt_annotation], 96-102 [fmt_ty] *)
Definition fmt_ty (t : option ty) : str :=
  lit ":" ++ match t with
             | Some TNil => lit "Nil" | Some TBool => lit "Bool" | Some TNum => lit "Num" | Some TStr => lit "Str" | Some TTab => lit "Table" | Some TTabRow => lit "TableRow"
             | Some (TDef d) => td_name d
             | None => lit "?"
             end.

Section Annotate.
  Variable g : graph.
  (** The types of the type graph, if they are known *)
  Variables ins outs : nat -> option ty.
  Variable v : bool.

  (** annotate.rs:12-57 [fmt], 59-94 [fmt_op]; the recursion is bounded by [fuel]. *)
  Fixpoint fmt (fuel : nat) (n : nat) : res str :=
    match fuel with
    | 0 => Err no_fuel
    | S fuel =>
        match node g n with
        | Some (NIdent t) => Ok (match tg_str t with [] => lit "''" | s => s end ++ if v then fmt_ty (outs n) else [])
        | Some (NNum _ t) => Ok (tg_str t ++ if v then fmt_ty (outs n) else [])
        | Some (NPound _ t) => Ok (tg_str t ++ fmt_ty (outs n))
        | Some (NVar t) => Ok (lit "$" ++ tg_str t ++ fmt_ty (outs n))
        | Some (NExpr _) => let? o := first_op g n in let? s := fmt_op fuel o in Ok (lit "{" ++ s ++ lit " }" ++ fmt_ty (outs n))
        | Some (NOp _) => fmt_op fuel n
        | _ => Panic
        end
    end
  with fmt_op (fuel : nat) (o : nat) : res str :=
    match fuel with
    | 0 => Err no_fuel
    | S fuel =>
        let? t := match node g o with Some (NOp t) => Ok t | _ => Panic end in
        let? args := match ins o with
                     | Some t => match graph_impl g o t with Some c => get_args g c | None => Ok [] end
                     | None => Ok []
                     end in
        let? xs := rmapM (fun a => fmt fuel a) args in
        let? next := op_next g o in
        let? rest := match next with Some n => let? s := fmt_op fuel n in Ok (lit " |" ++ s) | None => Ok [] end in
        Ok (fmt_ty (ins o) ++ lit " " ++ tg_str t ++ (if v then fmt_ty (outs o) else []) ++ flat_map (fun x => lit " " ++ x) xs ++ rest)
    end.
End Annotate.
