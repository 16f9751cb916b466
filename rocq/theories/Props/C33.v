(** C33: a type specific implementation wins, in any definition order. *)
From Coq Require Import String List NArith ZArith Bool.
From Verif Require Import Model.Base Model.Value Model.Ast Model.Registry Spec.RegistrySpec
  Proofs.RegistryProofs Proofs.RegistrySamples.
Import ListNotations.

(** The implementation found is the latest accepted one for this op and type that no clear removed, else the latest one
    for any type. *)
Theorem C33_lookup : forall s cs op t, wf s ->
  get_impl (df_impls (snd (run false s cs))) op t =
  match latest (at_key (df_impls s) op (Some t)) (observe false s cs) op (Some t) with
  | Some i => Some i
  | None => latest (at_key (df_impls s) op None) (observe false s cs) op None
  end.
Proof. exact lookup_history. Qed.
Print Assumptions C33_lookup.

(** An accepted definition is in force for its op and type, and nothing else changes. *)
Theorem C33_definition : forall s d s', wf s -> process false s (CDef d) = (Ok tt, s') ->
  exists key, (match d_in d with Some n => exists t, get_type (df_types s) n = Some t /\ key = Some t | None => key = None end) /\
    (forall op k, at_key (df_impls s') op k =
                  if str_eqb (d_name d) op && key_eqb key k then Some (IDef d) else at_key (df_impls s) op k) /\
    df_types s' = df_types s.
Proof. exact def_accepted. Qed.
Print Assumptions C33_definition.

Theorem C33_any_order : forall s d1 d2 s1 s12 s2 s21, wf s ->
  process false s (CDef d1) = (Ok tt, s1) -> process false s1 (CDef d2) = (Ok tt, s12) ->
  process false s (CDef d2) = (Ok tt, s2) -> process false s2 (CDef d1) = (Ok tt, s21) ->
  (forall k1 k2, match d_in d1 with Some n => get_type (df_types s) n | None => None end = k1 ->
                 match d_in d2 with Some n => get_type (df_types s) n | None => None end = k2 ->
                 str_eqb (d_name d1) (d_name d2) && key_eqb k1 k2 = false) ->
  forall op t, get_impl (df_impls s12) op t = get_impl (df_impls s21) op t.
Proof. exact defs_commute. Qed.
Print Assumptions C33_any_order.

Definition any := df LShell "foo" None [] [blk "\" [num 1]].
Definition on_num := df LShell "foo" (Some "Num"%string) [] [blk "\" [num 2]].
Definition on_num2 := df file "foo" (Some "Num"%string) [] [blk "\" [sub [blk "get" [num 3]]]].
Definition own_eq := df LShell "eq" (Some "Num"%string) ["rhs"%string] [blk "\" [num 4]].

Example C33_example :
  wf sample /\
  (let s := snd (run false sample [CDef on_num; CDef any]) in
   get_impl (df_impls s) (lit "foo") TNum = Some (IDef on_num) /\ get_impl (df_impls s) (lit "foo") TStr = Some (IDef any)) /\
  (let s := snd (run false sample [CDef any; CDef on_num; CDef on_num2]) in
   get_impl (df_impls s) (lit "foo") TNum = Some (IDef on_num2) /\ get_impl (df_impls s) (lit "foo") TStr = Some (IDef any)) /\
  fst (run false sample [CDef own_eq]) = [Err 3] /\
  (let s := snd (run false sample [CDef any; CDef on_num2; CClear true]) in
   get_impl (df_impls s) (lit "foo") TNum = Some (IDef any)).
Proof. split; [apply sample_built_in|]. vm_compute. auto 10. Qed.
