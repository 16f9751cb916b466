(** C36: tuple type names. *)
From Coq Require Import String List NArith Bool.
From Verif Require Import Model.Base Model.Value Model.TableOps Model.Tuple Spec.TupleSpec Proofs.TupleProofs.
Import ListNotations.

Theorem C36_name : forall leaf s, proper leaf s -> tyname (build s) = written s.
Proof. exact name_written. Qed.
Print Assumptions C36_name.

Theorem C36_parse_back : forall types l, proper (plain types) (Node l) -> no_final_U (Node l) ->
  parse_name types (tyname (build (Node l))) = Some (build (Node l)).
Proof. exact parse_back. Qed.
Print Assumptions C36_parse_back.

Theorem C36_distinct : forall types s1 s2, proper (plain types) s1 -> proper (plain types) s2 ->
  tyname (build s1) = tyname (build s2) -> s1 = s2.
Proof. exact names_distinct. Qed.
Print Assumptions C36_distinct.

(** Types are compared by name. *)
Theorem C36_equality : forall types s1 s2, proper (plain types) s1 -> proper (plain types) s2 ->
  ty_eqb (build s1) (build s2) = true -> build s1 = build s2.
Proof. exact types_distinct. Qed.
Print Assumptions C36_equality.

(** Whatever is parsed is the name of the tuple of registered types that is returned. *)
Theorem C36_sound : forall types, keyed types -> forall w t, parse_name types w = Some t ->
  exists l, build (Node l) = t /\ written (Node l) = w /\ tyname t = w /\
            proper (fun t => types (tyname t) = Some t) (Node l).
Proof. exact parse_sound. Qed.
Print Assumptions C36_sound.

(** The elements are the fields, in order, called t0, t1, and so on. *)
Theorem C36_fields : forall l, exists fs, build (Node l) = TDef (TyDef (tyname (build (Node l))) (TProduct fs)) /\
  length fs = length l /\
  forall i s, nth_error l i = Some s -> nth_error fs i = Some (lit "t" ++ dec i, build s).
Proof. exact fields_numbered. Qed.
Print Assumptions C36_fields.

(** A type flag may name such a tuple; any text that does not parse as one must be a registered name. *)
Theorem C36_flag : forall types,
  (forall l, proper (plain types) (Node l) -> no_final_U (Node l) ->
     type_flag types (tyname (build (Node l))) = Some (build (Node l))) /\
  (forall w, (forall t, parse_name types w <> Some t) -> type_flag types w = types w).
Proof. intros types. split; [exact (flag_tuple types)|exact (flag_registered types)]. Qed.
Print Assumptions C36_flag.

Definition unit_def (s : string) : ty := TDef (TyDef (lit s) (TProduct [])).
Definition known (l : list ty) (n : str) : option ty := find (fun t => str_eqb (tyname t) n) l.
Definition demo_types := known [TNum; TStr; unit_def "A"; unit_def "A-B"; unit_def "B-C"; unit_def "C"; unit_def "U"].
Definition demo := Node [Leaf TNum; Node [Leaf TStr; Node [Leaf (unit_def "U"); Leaf TNum]]; Leaf (unit_def "A")].

Example C36_example :
  proper (plain demo_types) demo /\ no_final_U demo /\
  tyname (build demo) = lit "U_Num-U_Str-U_U-Num__-A_" /\
  parse_name demo_types (lit "U_Num-U_Str-U_U-Num__-A_") = Some (build demo) /\
  parse_name demo_types (lit "U_Num-U_Str-U_U-Num_-A_") = None.
Proof.
  split; [|split; [|vm_compute; auto]].
  - cbn. unfold plain. repeat split; try reflexivity; try discriminate; cbn; intuition discriminate.
  - apply no_final_node. split.
    { intros l' t E. destruct l' as [|? [|? [|? l']]]; try discriminate; injection E; intros; subst; try discriminate.
      destruct l'; discriminate. }
    repeat constructor; try exact I.
    + intros l' t E. destruct l' as [|? [|? l']]; try discriminate. injection E; intros. destruct l'; discriminate.
    + intros l' t E. destruct l' as [|? [|? l']]; try discriminate; injection E; intros; subst; try discriminate.
      destruct l'; discriminate.
Qed.

(** Two different tuple types with the same name are taken for one. *)
Theorem C36_collision_refuted : exists s1 s2, proper (fun t => demo_types (tyname t) = Some t) s1 /\
  proper (fun t => demo_types (tyname t) = Some t) s2 /\ build s1 <> build s2 /\ ty_eqb (build s1) (build s2) = true.
Proof.
  exists (Node [Leaf (unit_def "A-B"); Leaf (unit_def "C")]), (Node [Leaf (unit_def "A"); Leaf (unit_def "B-C")]).
  cbn [proper]. repeat split; try reflexivity; try discriminate.
Qed.
Print Assumptions C36_collision_refuted.

(** A tuple that ends in a type called U has a name that does not parse. *)
Theorem C36_final_U_refuted : exists types s, proper (plain types) s /\ parse_name types (tyname (build s)) = None.
Proof.
  exists demo_types, (Node [Leaf TNum; Leaf (unit_def "U")]). split; [|vm_compute; reflexivity].
  cbn. unfold plain. repeat split; try reflexivity; try discriminate; cbn; intuition discriminate.
Qed.
Print Assumptions C36_final_U_refuted.
