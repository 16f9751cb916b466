(** C34: types cannot be redefined and clearing removes only user definitions. *)
From Coq Require Import String List NArith ZArith Bool.
From Verif Require Import Model.Base Model.Value Model.Ast Model.Registry Spec.RegistrySpec
  Proofs.RegistryProofs Proofs.RegistrySamples.
Import ListNotations.

Theorem C34_no_redefinition : forall debug s p t, get_type (df_types s) (pt_name p) = Some t ->
  exists e, process debug s (CDefTy p) = (Err e, s).
Proof. exact no_redefinition. Qed.
Print Assumptions C34_no_redefinition.

Theorem C34_refused_unchanged : forall s c e s', process false s c = (Err e, s') -> s' = s.
Proof. exact refused_unchanged. Qed.
Print Assumptions C34_refused_unchanged.

Theorem C34_types_stay : forall s c r s' n t, process false s c = (r, s') -> (forall f, c <> CClear f) ->
  get_type (df_types s) n = Some t -> get_type (df_types s') n = Some t.
Proof. exact types_stay. Qed.
Print Assumptions C34_types_stay.

Theorem C34_clear_types : forall base cs, built_in base -> Forall by_user cs ->
  forall s r s', s = snd (run false base cs) -> process false s (CClear false) = (r, s') ->
  forall n, get_type (df_types s') n = get_type (df_types base) n.
Proof. exact types_restored. Qed.
Print Assumptions C34_clear_types.

(** The built-in implementations are back, except for those a constructor had replaced. *)
Theorem C34_clear_impls : forall base cs, built_in base -> Forall by_user cs ->
  forall s r s', s = snd (run false base cs) -> process false s (CClear false) = (r, s') ->
  forall op key,
    (~ (key = None /\ constructor_made (observe false base cs) op) -> at_key (df_impls s') op key = at_key (df_impls base) op key) /\
    (key = None -> constructor_made (observe false base cs) op -> at_key (df_impls s') op key = None).
Proof. exact clear_all. Qed.
Print Assumptions C34_clear_impls.

Theorem C34_clear_files : forall s r s', wf s -> process false s (CClear true) = (r, s') ->
  (forall op key, at_key (df_impls s') op key =
     match at_key (df_impls s) op key with
     | Some i => match im_loc i with LFile _ _ => None | _ => Some i end
     | None => None
     end) /\
  (forall n, alookup str_eqb n (df_types s') =
     match alookup str_eqb n (df_types s) with Some (TyUser (LFile _ _) _) => None | x => x end).
Proof. exact clear_files. Qed.
Print Assumptions C34_clear_files.

Definition fld (n t : string) : pfield := PField (lit n) (lit t) [].
Definition point := PType LShell (lit "Point") (PProduct [fld "x" "Num"; fld "y" "Num"]).
Definition shape := PType file (lit "Shape") (PSum [(lit "Dot", Some [fld "at" "Point"]); (lit "Empty", None)]).
Definition area := df LShell "area" (Some "Shape"%string) [] [blk "\" [num 0]].
Definition history := [CDefTy point; CDefTy shape; CDef area; CDefTy point].

Example C34_example :
  built_in sample /\ Forall by_user history /\
  fst (run false sample history) = [Ok tt; Ok tt; Ok tt; Err 5] /\
  (let s := snd (run false sample history) in
   at_key (df_impls s) (lit "Shape::Dot") None <> None /\ get_type (df_types s) (lit "Shape") <> None /\
   let s' := snd (process false s (CClear false)) in
   s' = sample /\
   let s' := snd (process false s (CClear true)) in
   map fst (df_types s') = map fst (df_types sample) ++ [lit "Point"] /\
   map fst (df_impls s') = map fst (df_impls sample) ++ [lit "Point"; lit "area"]).
Proof.
  split; [exact sample_built_in|]. split.
  - repeat constructor; discriminate.
  - vm_compute. repeat split; discriminate.
Qed.

(** A type named like a built-in op replaces it, and clearing then leaves no such op. *)
Theorem C34_builtin_lost_refuted : exists base cs op, built_in base /\ Forall by_user cs /\
  at_key (df_impls base) op None <> None /\
  at_key (df_impls (snd (run false base (cs ++ [CClear false])))) op None = None.
Proof.
  exists sample, [CDefTy (PType LShell (lit "get") (PProduct [fld "x" "Num"]))], (lit "get").
  split; [exact sample_built_in|]. split; [repeat constructor; discriminate|]. vm_compute. split; [discriminate|reflexivity].
Qed.
Print Assumptions C34_builtin_lost_refuted.

(** In a build with debug assertions the same definition panics. *)
Theorem C34_debug_panic_refuted : exists base p, built_in base /\ fst (process true base (CDefTy p)) = Panic.
Proof.
  exists sample, (PType LShell (lit "get") (PProduct [fld "x" "Num"])). split; [exact sample_built_in|reflexivity].
Qed.
Print Assumptions C34_debug_panic_refuted.

(** Clearing files can leave a type whose field has a type that no longer exists; this name can then be given to a
    different type, which compares equal to the old one. *)
Definition inner n := PType file (lit "In") (PProduct [fld n "Num"]).
Definition outer := PType LShell (lit "Out") (PProduct [fld "f" "In"]).
Theorem C34_dangling_refuted : exists cs o f i, Forall by_user cs /\
  get_type (df_types (snd (run false sample cs))) (lit "Out") = Some (TDef (TyDef o (TProduct [(f, i)]))) /\
  exists i', get_type (df_types (snd (run false sample cs))) (lit "In") = Some i' /\ i' <> i /\ ty_eqb i' i = true.
Proof.
  exists [CDefTy (inner "a"); CDefTy outer; CClear true; CDefTy (inner "b")]. do 3 eexists. split; [repeat constructor; discriminate|].
  split; [vm_compute; reflexivity|]. eexists. split; [vm_compute; reflexivity|]. split; [discriminate|reflexivity].
Qed.
Print Assumptions C34_dangling_refuted.
