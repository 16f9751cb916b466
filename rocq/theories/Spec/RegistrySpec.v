(** What is defined, as a function of the history of commands. *)
From Coq Require Import String List ZArith NArith Bool.
From Verif Require Import Model.Base Model.Value Model.Ast Model.Registry.
Import ListNotations.
Set Implicit Arguments.

(** Commands that took effect. *)
Inductive event := EvDef (key : option ty) (d : defn) | EvTy (l : loc) (d : tydef) | EvClear (only_files : bool) | EvNone.

(** [c] was processed in [s] with result [r], leaving [s']. *)
Definition event_of (s : defs) (c : cmd) (r : res unit) (s' : defs) : event :=
  match r with
  | Ok _ =>
      match c with
      | CDef d => EvDef (match d_in d with Some n => get_type (df_types s) n | None => None end) d
      | CDefTy p => match get_type (df_types s') (pt_name p) with Some (TDef d) => EvTy (pt_loc p) d | _ => EvNone end
      | CClear f => EvClear f
      end
  | _ => EvNone
  end.
Fixpoint observe (debug : bool) (s : defs) (cs : list cmd) : list event :=
  match cs with
  | [] => []
  | c :: cs => let (r, s') := process debug s c in event_of s c r s' :: observe debug s' cs
  end.

Definition key_eqb (a b : option ty) : bool :=
  match a, b with Some a, Some b => ty_eqb a b | None, None => true | _, _ => false end.

(** The last of the variants (numbered from [i]) called [n]. *)
Fixpoint last_named {A} (n : str) (i : nat) (vs : list (str * A)) : option nat :=
  match vs with
  | [] => None
  | (m, _) :: vs => match last_named n (S i) vs with
                    | Some j => Some j
                    | None => if str_eqb m n then Some i else None
                    end
  end.
(** The variant of [d] that [op] constructs. *)
Definition constructs (d : tydef) (op : str) : option nat :=
  match td_tv d with
  | TProduct _ => if str_eqb (td_name d) op then Some 0 else None
  | TSum vs => last_named op 0 (map (fun v => (td_name d ++ lit "::" ++ fst v, tt)) vs)
  end.

(** The implementation of [op] for [key] after [ev], if it was [cur] before. *)
Definition upd (op : str) (key : option ty) (cur : option impl) (ev : event) : option impl :=
  match ev with
  | EvDef k d => if str_eqb (d_name d) op && key_eqb k key then Some (IDef d) else cur
  | EvTy l d => match key, constructs d op with None, Some v => Some (IIntrinsic l (IInit d v)) | _, _ => cur end
  | EvClear f => match cur with
                 | Some i => match im_loc i with LOgma => cur | LShell => if f then cur else None | LFile _ _ => None end
                 | None => None
                 end
  | EvNone => cur
  end.
Definition latest (base : option impl) (evs : list event) (op : str) (key : option ty) : option impl :=
  fold_left (upd op key) evs base.

(** The implementation registered for exactly this op and key. *)
Definition at_key (m : impls) (op : str) (key : option ty) : option impl :=
  match find (fun e => str_eqb (fst e) op) m with
  | Some (_, k) => match key with
                   | Some t => option_map snd (find (fun e => ty_eqb (fst e) t) (k_tys k))
                   | None => k_any k
                   end
  | None => None
  end.

(** Maps have one entry per key. *)
Definition wf_impls (m : impls) : Prop :=
  NoDup (map fst m) /\
  forall op k, In (op, k) m -> forall i j a b, nth_error (k_tys k) i = Some a -> nth_error (k_tys k) j = Some b ->
                                               ty_eqb (fst a) (fst b) = true -> i = j.
Definition wf (s : defs) : Prop := wf_impls (df_impls s) /\ NoDup (map fst (df_types s)).

(** Everything is defined by ogma. *)
Definition built_in (s : defs) : Prop :=
  wf s /\ (forall op k i, In (op, k) (df_impls s) -> (k_any k = Some i \/ In i (map snd (k_tys k))) -> im_loc i = LOgma) /\
  (forall n l d, In (n, TyUser l d) (df_types s) -> l = LOgma).

(** A command given by the user. *)
Definition by_user (c : cmd) : Prop :=
  match c with CDef d => d_loc d <> LOgma | CDefTy p => pt_loc p <> LOgma | CClear _ => True end.

(** Some accepted type definition among [evs] made a constructor called [op]. *)
Definition constructor_made (evs : list event) (op : str) : Prop :=
  exists l d v, In (EvTy l d) evs /\ constructs d op = Some v.
