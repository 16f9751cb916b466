(** C75: definitions of types mean what is written. *)
From Coq Require Import String List ZArith NArith Bool Arith.
From Verif Require Import Model.Base Model.Utf Model.Value Model.Ast Model.Parse Model.Registry Model.ParseTy Spec.ParseSpec Spec.ParseTySpec Proofs.ParseSamples Proofs.ParseTyProofs Proofs.ParseTySound.
From Verif Require Model.Get.
Import ListNotations.

(** Any text gives a definition, an error or a failure. *)
Theorem C75_stops : forall k line, definition_type k line <> PFuel.
Proof. exact type_stops. Qed.
Print Assumptions C75_stops.

(** Any way of writing a definition of a type is read as that definition. *)
Theorem C75_round_trip : forall k n b s, sane k -> w_deftype k n b s -> exists r n' b', definition_type k s = POk r (n', b') /\ er_tag n' = er_tag n /\ er_body b' = er_body b.
Proof. exact round_trip. Qed.
Print Assumptions C75_round_trip.
(** Only what is written as a definition of a type is read as one, as this one. *)
Theorem C75_only : forall k r n b s, sane k -> definition_type k s = POk r (n, b) -> w_deftype k n b s.
Proof. exact only_types. Qed.
Print Assumptions C75_only.
Theorem C75_one : forall k n1 n2 b1 b2 s, sane k -> w_deftype k n1 b1 s -> w_deftype k n2 b2 s -> er_tag n1 = er_tag n2 /\ er_body b1 = er_body b2.
Proof. exact one_type. Qed.
Print Assumptions C75_one.

(** If it is accepted there was no type of this name; now there is the type with the variants and fields that are written, in order, of the
    types that are named; other types are as before. *)
Theorem C75_defines : forall k l n b s ts ts' d, sane k -> w_deftype k n b s -> insert_text k l s ts = Ok (ts', d) ->
  get_type ts (tg_str n) = None /\ (exists tv, d = TyDef (tg_str n) tv /\ body_means ts b tv) /\ get_type ts' (tg_str n) = Some (TDef d) /\ forall m, m <> tg_str n -> get_type ts' m = get_type ts m.
Proof. exact defines. Qed.
Print Assumptions C75_defines.
(** It is accepted if the name is new and all types exist. *)
Theorem C75_accepts : forall k l n b s ts tv, sane k -> w_deftype k n b s -> get_type ts (tg_str n) = None -> body_means ts b tv -> exists ts', insert_text k l s ts = Ok (ts', TyDef (tg_str n) tv).
Proof. exact accepts. Qed.
Print Assumptions C75_accepts.

(** Nothing else is accepted. *)
Theorem C75_entered : forall k l s ts ts' d, sane k -> insert_text k l s ts = Ok (ts', d) -> exists n b, w_deftype k n b s /\ td_name d = tg_str n /\ body_means ts b (td_tv d).
Proof. exact entered. Qed.
Print Assumptions C75_entered.

(** If the fields have different names, [get] with the name of one takes the value at its place, of its type. *)
Theorem C75_field : forall ts n fs xs i f, body_means ts (TbProduct fs) (TProduct xs) -> NoDup (map (fun f => tg_str (tf_name f)) fs) -> nth_error fs i = Some f ->
  exists t, Get.field_accessor (TDef (TyDef n (TProduct xs))) (tg_str (tf_name f)) = Ok (i, t) /\ is_type ts (tg_str (tf_ty f)) t.
Proof. exact field_read. Qed.
Print Assumptions C75_field.

(** ** Examples *)
Ltac spc := intros c H; cbn in H; repeat (destruct H as [<-|H]; [cbn; tauto|]); destruct H.
Ltac nm := split; [do 2 eexists; split; reflexivity|intros c H; cbn in H; repeat (destruct H as [<-|H]; [left; reflexivity|]); destruct H].
Ltac gp := split; [discriminate|spc].
Definition tg (s : string) : tag := Tag 0 0 (lit s).
Definition base : types := [(lit "Num", TyBase TNum); (lit "Str", TyBase TStr)].
Definition sides : tbody := TbSum [(tg "One", None); (tg "Two", Some [TField (tg "x") (tg "Num") [tg "Str"; tg "Num"]; TField (tg "y") (tg "Str") []])].
Example C75_example : w_deftype ascii (tg "Side") sides (lit "def-ty Side ::One | Two{x:Num< Str Num>y:Str }") /\
  body_means base sides (TSum [(lit "One", None); (lit "Two", Some [(lit "x", TNum); (lit "y", TStr)])]) /\ get_type base (lit "Side") = None.
Proof.
  split; [|split; [|reflexivity]].
  - apply (@w_sum ascii (tg "Side") _ [] (lit " ") (lit "One | Two{x:Num< Str Num>y:Str }")); [nm|spc|spc|].
    apply (@w_variants_more ascii _ _ [] (lit "One") (lit " ") (lit " Two{x:Num< Str Num>y:Str }")); [spc|split; [nm|reflexivity]|spc|].
    apply (@w_variants_one ascii _ (lit " ") (lit "Two{x:Num< Str Num>y:Str }") []); [spc| |spc]. split; [nm|]. exists [], (lit "x:Num< Str Num>y:Str "). split; [spc|]. split; [|reflexivity].
    apply (@w_list_more tfield (w_field ascii) _ _ _ [] (lit "x:Num< Str Num>") [] (lit "y:Str ")); [spc| |split; [spc|discriminate]| |discriminate].
    + split; [nm|]. split; [nm|]. exists (lit "< Str Num>"). split; [|reflexivity]. right. split; [discriminate|]. exists (lit " Str Num"). split; [|reflexivity].
      apply (@w_list_more tag (w_tag ascii) _ _ _ (lit " ") (lit "Str") (lit " ") (lit "Num")); [spc|split; [nm|reflexivity]|gp| |discriminate].
      apply (@w_list_one tag (w_tag ascii) _ _ [] (lit "Num") []); [spc|split; [nm|reflexivity]|spc].
    + apply (@w_list_one tfield (w_field ascii) _ _ [] (lit "y:Str") (lit " ")); [spc| |spc]. split; [nm|]. split; [nm|]. exists []. split; [now left|reflexivity].
  - repeat (constructor; try (cbn; eauto)); try (eexists; reflexivity).
Qed.
Example C75_product_example : insert_text ascii LShell (lit "def-ty Point { x:Num y:Num }") base =
  Ok (base ++ [(lit "Point", TyUser LShell (TyDef (lit "Point") (TProduct [(lit "x", TNum); (lit "y", TNum)])))], TyDef (lit "Point") (TProduct [(lit "x", TNum); (lit "y", TNum)])).
Proof. reflexivity. Qed.

Example C75_only_example : definition_type ascii (lit "def-ty A :: B | ") = PErr /\ definition_type ascii (lit "def-ty A { x: Num }") = PFail /\
  definition_type ascii (lit "def-ty A { x:Num } y") = PErr /\ exists r n b, definition_type ascii (lit "def-ty A :: ") = POk r (n, b).
Proof. repeat split. do 3 eexists. reflexivity. Qed.

(** ** Findings *)
(** Two fields of the same name are accepted, unlike two parameters of a definition (C39); the second can never be read. *)
Theorem C75_twice_refuted : exists s ts d, insert_text ascii LShell s base = Ok (ts, d) /\ td_tv d = TProduct [(lit "x", TNum); (lit "x", TStr)] /\
  forall n t, Get.field_accessor (TDef d) n <> Ok (1, t).
Proof.
  exists (lit "def-ty P { x:Num x:Str }"). do 2 eexists. split; [reflexivity|]. split; [reflexivity|]. intros n t.
  match goal with |- ?a <> _ => change a with (match Get.field_index n [(lit "x", TNum); (lit "x", TStr)] with Some x => Ok x | None => Err 31 end) end.
  cbn [Get.field_index]. destruct (str_eqb (lit "x") n); discriminate.
Qed.

(** Two variants of the same name are accepted; then there is no way to make a value of the first (and a build with debug assertions
    panics). *)
Theorem C75_variants_refuted : exists s ts d m, insert_text ascii LShell s base = Ok (ts, d) /\ td_tv d = TSum [(lit "B", None); (lit "B", Some [(lit "x", TNum)])] /\
  add_inits false LShell (init_ops d) [] = Ok m /\ (forall op t l, get_impl m op t <> Some (IIntrinsic l (IInit d 0))) /\ add_inits true LShell (init_ops d) [] = Panic.
Proof.
  pose (d := TyDef (lit "A") (TSum [(lit "B", None); (lit "B", Some [(lit "x", TNum)])])).
  pose (n := fst (nth 0 (init_ops d) ([], IInit d 0))).
  exists (lit "def-ty A :: B | B { x:Num }"), (base ++ [(lit "A", TyUser LShell d)]), d, [(n, Keys [] (Some (IIntrinsic LShell (IInit d 1))))].
  split; [reflexivity|]. split; [reflexivity|]. split; [reflexivity|]. split; [|reflexivity].
  intros op t l. unfold get_impl. cbn [alookup]. match goal with |- context [if ?c then _ else _] => destruct c end; [cbn; intros [=]|discriminate].
Qed.

(** No space can be between the braces if there are no fields. *)
Theorem C75_blank_refuted : exists a b, definition_type ascii (a ++ b) <> PErr /\ definition_type ascii (a ++ lit " " ++ b) = PErr.
Proof. exists (lit "def-ty A {"), (lit "}"). split; [discriminate|reflexivity]. Qed.

(** A sum of no variants is accepted; there are no values of such a type. *)
Theorem C75_empty_refuted : exists s ts d, insert_text ascii LShell s base = Ok (ts, d) /\ td_tv d = TSum [] /\ init_ops d = [].
Proof. exists (lit "def-ty A ::"). do 2 eexists. split; [reflexivity|]. split; reflexivity. Qed.
