(** C18: get on a table row returns a value of the type it promised. *)
From Coq Require Import String List ZArith NArith.
From Verif Require Import Model.Base Model.Value Model.TableCrate Model.RowPar Model.Get
  Spec.TableSpec Spec.ColSpec Spec.OpsSpec Spec.CacheSpec Proofs.GetProofs Proofs.GetProofs2 Proofs.Samples.
Import ListNotations.

Theorem C18_get : forall (t : table) i c col g,
  rectangular t -> i < length t -> fed t c ->
  let out := fst (table_row_get t i c col g) in
  fed t (snd (table_row_get t i c col g)) /\
  match col with
  | Err e => out = Err e
  | Panic => out = Panic
  | Ok (VStr name) =>
      (no_column_named t name -> exists e, out = Err e) /\
      (forall j, column_named t name j -> exists e, cell t i j = Some e /\ got g (val_of_ent e) out)
  | Ok _ => exists e, out = Err e
  end.
Proof. exact table_row_get_full. Qed.
Print Assumptions C18_get.

(** If the default has the type it was compiled for, so has the result. *)
Theorem C18_type : forall (t : table) i c col g v,
  (forall o d, g = GDefault o (Ok d) -> same_type d o = true) ->
  fst (table_row_get t i c col g) = Ok v -> same_type v (get_type_ty g) = true.
Proof. exact table_row_get_type. Qed.
Print Assumptions C18_type.

(** Fields of product types: the accessor exists exactly for declared fields and gives the value
    at the position of the first field of that name, of the declared type. *)
Theorem C18_field : forall d name fs x variant vs owned,
  d = TyDef name (TProduct fs) ->
  Forall2 (fun v f => same_type v (snd f) = true) vs fs ->
  match field_accessor (TDef d) x with
  | Ok (i, t) => nth_error fs i = Some (x, t) /\
      exists v, nth_error vs i = Some v /\ field_get owned i (VOgma d variant vs) = Ok v /\ same_type v t = true
  | Err _ => forall i t, nth_error fs i <> Some (x, t)
  | Panic => False
  end.
Proof. exact field_access_correct. Qed.
Print Assumptions C18_field.

(** Only product types have fields, and of fields with the same name it is the first. *)
Theorem C18_field_types : forall t x i u,
  field_accessor t x = Ok (i, u) <->
  exists name fs, t = TDef (TyDef name (TProduct fs)) /\ nth_error fs i = Some (x, u) /\
    forall j w, j < i -> nth_error fs j <> Some (x, w).
Proof. exact field_accessor_iff. Qed.
Print Assumptions C18_field_types.

Example C18_example_field : field_accessor (TDef (TyDef (lit "P") (TProduct [(lit "x", TNum); (lit "y", TStr)]))) (lit "y") = Ok (1, TStr) /\
  field_accessor TNum (lit "y") = Err 30.
Proof. vm_compute. split; reflexivity. Qed.

Example C18_example :
  rectangular stock /\ fed stock [(lit "qty", 1)] /\
  fst (table_row_get stock 1 [(lit "qty", 1)] (Ok (VStr (lit "qty"))) (GFlag TNum)) = Ok (num 7) /\
  fst (table_row_get stock 3 [] (Ok (VStr (lit "qty"))) (GFlag TNum)) = Err 12 /\
  fst (table_row_get stock 3 [] (Ok (VStr (lit "qty"))) (GDefault TNum (Ok (num 0)))) = Ok (num 0).
Proof.
  split; [exact stock_rect|]. split.
  - intros n c. cbn [In]. intros [[= <- <-]|[]]. apply column_named_b. reflexivity.
  - repeat split; vm_compute; reflexivity.
Qed.
