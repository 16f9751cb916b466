(** Looking up ops and types by name, from an item of a partition. *)
From Coq Require Import String List NArith Bool Arith.
From Verif Require Import Model.Base Model.Value Model.TableCrate Model.Parts.
Import ListNotations.
Set Implicit Arguments.

(** ogma/src/lang/defs2/partitions/mod.rs:546-554 [bnd_and_imports] *)
Definition bnd_and_imports (ps : parts) (id : nat) : res (nat * list nat) :=
  let? n := pget ps id in
  Ok (match pn_parent n, pn_item n with
      | None, _ => (root_id, [])
      | Some x, PBoundary _ _ => (x, [])
      | Some x, PType imports | Some x, PImpl imports => (x, imports)
      end).

(** The errors of a lookup (defs2/mod.rs:206-215, 222-231, 276-286, and [impl_not_found], [type_not_found]) *)
Definition ambiguous : nat := 1.
Definition not_found : nat := 2.

Section Get.
  Variable so : sorter.
  Variable partition_point : forall A : Type, (A -> bool) -> list A -> nat.
  Variable ps : parts.
  (** [Implementation]; defs2/mod.rs:17-21: the maps [impls] and [types] of [Definitions] *)
  Variable I : Type.
  Variable impls : nat -> option (option ty * I).
  Variable types : nat -> option ty.

  (** defs2/mod.rs:180-186, 260-266 [contains] *)
  Definition contains_impl (key : str) (within : nat) : res bool :=
    let? bi := bnd_and_imports ps within in
    let? ns := find_impls so partition_point ps (fst bi) (snd bi) key in
    Ok (match ns with [] => false | _ => true end).
  Definition contains_type (key : str) (within : nat) : res bool :=
    let? bi := bnd_and_imports ps within in
    let? ns := find_types so partition_point ps (fst bi) (snd bi) key in
    Ok (match ns with [] => false | _ => true end).

  (** defs2/mod.rs:188-240 [Impls::get]; a missing entry of the map panics ([expect]). *)
  Fixpoint get_loop (ty : ty) (ns : list nat) (found ambig : option I) : res I :=
    match ns with
    | [] => match found, ambig with
            | Some x, _ => Ok x
            | None, Some x => Ok x
            | None, None => Err not_found
            end
    | n :: ns =>
        match impls n with
        | None => Panic
        | Some (Some t, i) =>
            if ty_eqb t ty then match found with Some _ => Err ambiguous | None => get_loop ty ns (Some i) ambig end
            else get_loop ty ns found ambig
        | Some (None, i) => match ambig with Some _ => Err ambiguous | None => get_loop ty ns found (Some i) end
        end
    end.
  Definition get_impl (key : str) (ty : ty) (within : nat) : res I :=
    let? bi := bnd_and_imports ps within in
    let? ns := find_impls so partition_point ps (fst bi) (snd bi) key in
    get_loop ty ns None None.

  (** defs2/mod.rs:268-300 [Types::get] *)
  Definition get_ty (key : str) (within : nat) : res ty :=
    let? bi := bnd_and_imports ps within in
    let? ns := find_types so partition_point ps (fst bi) (snd bi) key in
    match ns with
    | [] => Err not_found
    | [x] => match types x with Some t => Ok t | None => Panic end
    | _ :: _ :: _ => Err ambiguous
    end.
End Get.

(** defs2/mod.rs:335-436 [PolyGet]: with a text as key errors are [None]. *)
Definition as_option {A} (r : res A) : res (option A) := match r with Ok a => Ok (Some a) | Err _ => Ok None | Panic => Panic end.
