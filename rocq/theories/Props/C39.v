(** C39: parameters of a definition have different names. *)
From Coq Require Import String List ZArith NArith Bool Arith.
From Verif Require Import Model.Base Model.Utf Model.Ast Model.Parse Spec.ParseSpec Proofs.ParseSamples Proofs.ParseMainProofs.
Import ListNotations.

Theorem C39_distinct : forall k line r n ity ps e, definition_impl k line = POk r (n, ity, ps, e) -> NoDup (map param_name ps).
Proof. exact params_distinct. Qed.
Print Assumptions C39_distinct.

(** A written definition is accepted as written when the names differ, and refused otherwise. *)
Theorem C39_accepted : forall k n ity ps e s, sane k -> w_def k n ity ps e s -> NoDup (map param_name ps) ->
  exists n' ity' ps' e', definition_impl k s = POk [] (n', ity', ps', e') /\
    er_tag n' = er_tag n /\ option_map er_tag ity' = option_map er_tag ity /\ map er_param ps' = map er_param ps /\ er_expr e' = er_expr e.
Proof. exact (fun k n ity ps e s K W => proj1 (read_def k n ity ps e s K W)). Qed.
Print Assumptions C39_accepted.

Theorem C39_refused : forall k n ity ps e s, sane k -> w_def k n ity ps e s -> ~ NoDup (map param_name ps) -> definition_impl k s = PErr.
Proof. exact (fun k n ity ps e s K W => proj2 (read_def k n ity ps e s K W)). Qed.
Print Assumptions C39_refused.

Theorem C39_stops : forall k line, definition_impl k line <> PFuel.
Proof. exact definition_stops. Qed.
Print Assumptions C39_stops.

Definition tg (s : string) : tag := Tag 0 0 (lit s).
Definition body : expr := Expr (tg "") [BPrefix (OpSingle (tg "len")) [] None None] None.
Definition text (ps : str) : str := lit "def " ++ lit "foo-bar" ++ lit " " ++ lit "Table" ++ lit " " ++ lit "(" ++ ps ++ lit ")" ++ lit " " ++ lit "{" ++ lit " len " ++ lit "}".
Ltac inl := cbn; repeat (first [left; reflexivity|right]); fail.
Ltac spc := intros c H; cbn in H; repeat (destruct H as [<-|H]; [cbn; tauto|]); destruct H.
Ltac nm := split; [do 2 eexists; split; reflexivity|intros c H; cbn in H; repeat (destruct H as [<-|H]; [first [left; reflexivity|right; cbn; tauto]|]); destruct H].
Lemma written : forall ps sp, w_params ascii ps sp -> w_def ascii (tg "foo-bar") (Some (tg "Table")) ps body (text sp).
Proof.
  intros ps sp Hp. unfold text. rewrite <- (app_nil_r (lit "}")).
  apply (@w_def_ty ascii (tg "foo-bar") (tg "Table") ps body [] (lit " ") (lit " ") sp (lit " ") [] (lit " len ")).
  - right. constructor. nm.
  - nm.
  - spc.
  - split; [discriminate|spc].
  - spc.
  - exact Hp.
  - spc.
  - split; [reflexivity|]. apply (@w_blocks_one ascii _ (lit " ") (lit "len") (lit " ")); [spc| |spc].
    apply (@w_prefix ascii _ _ None None [] [] (lit "len") [] []); [reflexivity|reflexivity|intros E; now destruct E|split; [reflexivity|right; constructor; nm]|reflexivity|constructor].
  - spc.
Qed.
Example C39_example : w_params ascii [(tg "x", Some (tg "Num")); (tg "y", None); (tg "X", Some (tg "Expr"))] (lit "x:Num y X:Expr") /\
  exists n ps e, definition_impl ascii (text (lit "x:Num y X:Expr")) = POk [] (n, Some (Tag 12 17 (lit "Table")), ps, e) /\
    map er_param ps = [(tg "x", Some (tg "Num")); (tg "y", None); (tg "X", Some (tg "Expr"))] /\
    definition_impl ascii (text (lit "x:Num y x")) = PErr.
Proof.
  split.
  - apply (@w_params_more ascii _ _ [] (lit "x:Num") (lit " ") (lit "y X:Expr")); [spc|split; [nm|eexists; split; [split; [nm|reflexivity]|reflexivity]]|split; [discriminate|spc]| |discriminate].
    apply (@w_params_more ascii _ _ [] (lit "y") (lit " ") (lit "X:Expr")); [spc|split; [nm|eexists; split; reflexivity]|split; [discriminate|spc]| |discriminate].
    apply (@w_params_one ascii _ [] (lit "X:Expr") []); [spc|split; [nm|eexists; split; [split; [nm|reflexivity]|reflexivity]]|spc].
  - do 3 eexists. split; [vm_compute; reflexivity|]. vm_compute. repeat split.
Qed.

(** Finding: a space between the brackets of an empty list is an error. *)
Theorem C39_space_refuted : exists s, s = text (lit " ") /\ definition_impl ascii s = PErr /\ exists d, definition_impl ascii (text (lit "")) = POk [] d.
Proof. eexists. split; [reflexivity|]. split; [vm_compute; reflexivity|]. eexists. vm_compute. reflexivity. Qed.
