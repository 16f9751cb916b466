(** C53: changes to a document take effect in version order. *)
From Coq Require Import String List ZArith NArith Permutation.
From Verif Require Import Model.Base Model.Utf Model.Lsp Spec.LspSpec Proofs.LspProofs.
Import ListNotations.

(** Consecutive versions, each delivered once, in any order: as if applied one after the other; nothing
    stays pending.  If one of them panics so does the delivery. *)
Theorem C53_any_order : forall bc t v css ds, (i32_min <= v)%Z -> (v + Z.of_nat (length css) <= i32_max)%Z ->
  Permutation ds (numbered v css) ->
  deliver bc ds (file_new t v) =
    (let? t := apply_all bc css t in Ok (File t (v + Z.of_nat (length css)) [])).
Proof. exact deliver_any_order. Qed.
Print Assumptions C53_any_order.

(** After any deliveries of distinct later versions, gaps allowed: the text is the original with exactly the
    gapless run of delivered changes after the original version applied in order; the others wait. *)
Theorem C53_in_flight : forall bc t v ds, (i32_min <= v)%Z -> NoDup (map fst ds) ->
  (forall x, In x ds -> (v < fst x <= i32_max)%Z) ->
  match deliver bc ds (file_new t v) with
  | Ok f => state_after bc t v ds f
  | Err e => exists css, delivered_run v css ds /\ apply_all bc css t = Err e
  | Panic => exists css, delivered_run v css ds /\ apply_all bc css t = Panic
  end.
Proof. exact deliver_from_new. Qed.
Print Assumptions C53_in_flight.

(** A change older than the document is dropped. *)
Theorem C53_old : forall bc d f, (fst d < f_version f)%Z -> f_pending f = [] ->
  add_changes bc d f = Ok f.
Proof. exact old_dropped. Qed.
Print Assumptions C53_old.

Example C53_example :
  let ins (n : nat) (s : string) := [Change (Some (Pos 0 n, Pos 0 n)) (lit s)] in
  let css := [ins 0 "b"; ins 0 "a"; ins 2 "c"]%string in
  let ds := [(7%Z, ins 2 "c"); (5%Z, ins 0 "b"); (6%Z, ins 0 "a")]%string in
  Permutation ds (numbered 4 css) /\
  deliver false ds (file_new [] 4) = Ok (File (lit "abc") 7 []) /\
  deliver false (firstn 2 ds) (file_new [] 4) = Ok (File (lit "b") 5 [(7%Z, ins 2 "c"%string)]).
Proof.
  cbv zeta. split; [|vm_compute; auto].
  apply (Permutation_cons_app [(5%Z, _); (6%Z, _)] []). reflexivity.
Qed.

(** Finding: the current version delivered again is applied again. *)
Theorem C53_duplicate_refuted : exists d f,
  f_version f = fst d /\ f_pending f = [] /\
  match add_changes false d f with Ok f' => f_text f' = lit "aa" /\ f_text f = lit "a" | _ => False end.
Proof.
  exists (1%Z, [Change (Some (Pos 0 0, Pos 0 0)) (lit "a")]), (File (lit "a") 1 []). vm_compute. auto.
Qed.
Print Assumptions C53_duplicate_refuted.
