(** What loading definitions should do. *)
From Coq Require Import String List ZArith NArith Bool Arith.
From Verif Require Import Model.Base Model.Value Model.Ast Model.Parse Model.Registry Model.ParseTy Model.File Spec.RegistrySpec.
Import ListNotations.
Set Implicit Arguments.

Definition has (w s : str) : Prop := exists a b, s = a ++ w ++ b.
(** No part of the text looks like a flag of [def] itself. *)
Definition plain (t : str) : Prop := ~ has (lit "--help") t /\ ~ has (lit " --list") t /\ ~ has (lit " --clear") t.

(** The definition that [t] is, for a parser that knows the ops of [s]. *)
Inductive written (k : lang) (s : defs) (l : loc) (t : str) : cmd -> Prop :=
| written_op : forall rest body n i ps e, t = lit "def " ++ rest ->
    definition_impl (Lang (alpha k) (alnum k) (white k) (number k) (contains_op (df_impls s))) t = POk body (n, i, ps, e) ->
    written k s l t (CDef (Defn l (tg_str n) (option_map tg_str i) (map (fun p => (tg_str (fst p), option_map tg_str (snd p))) ps) e))
| written_type : forall rest body n b, t = lit "def-ty " ++ rest ->
    definition_type (Lang (alpha k) (alnum k) (white k) (number k) (contains_op (df_impls s))) t = POk body (n, b) ->
    written k s l t (CDefTy (PType l (tg_str n) (plain_body b))).
Definition accepted (k : lang) (s : defs) (l : loc) (t : str) (s' : defs) : Prop :=
  exists c, written k s l t c /\ process false s c = (Ok tt, s').

(** The items are accepted one after the other. *)
Inductive loads (k : lang) (path : str) : defs -> list item -> defs -> Prop :=
| loads_nil : forall s, loads k path s [] s
| loads_cons : forall s x s1 xs s2, accepted k s (LFile path (it_line x)) (it_code x) s1 -> loads k path s1 xs s2 -> loads k path s (x :: xs) s2.

(** Each op has an implementation. *)
Definition full (s : defs) : Prop := forall op ks, In (op, ks) (df_impls s) -> k_any ks <> None \/ k_tys ks <> [].
(** The constructors and ops of [base] for any type have not been replaced. *)
Definition intact (base s : defs) : Prop := forall op i, at_key (df_impls base) op None = Some i -> at_key (df_impls s) op None = Some i.

(** What a definition defines, with types as in [ts]: the implementation at this op and key. *)
Definition defines (ts : types) (c : cmd) (op : str) (key : option ty) (i : impl) : Prop :=
  match c with
  | CDef d => i = IDef d /\ d_name d = op /\
      match d_in d, key with
      | None, None => True
      | Some n, Some t => exists u, get_type ts n = Some u /\ ty_eqb u t = true
      | _, _ => False
      end
  | CDefTy p => key = None /\ exists d v, get_type ts (pt_name p) = Some (TDef d) /\ constructs d op = Some v /\ i = IIntrinsic (pt_loc p) (IInit d v)
  | CClear _ => False
  end.
(** No two of the definitions define the same. *)
Definition apart (ts : types) (cs : list cmd) : Prop :=
  forall a x b y c op key i j, cs = a ++ x :: b ++ y :: c -> defines ts x op key i -> defines ts y op key j -> False.
