(** C24: variable writes never leak out of the expression that makes them. *)
From Coq Require Import String List ZArith NArith Bool Lia.
From Verif Require Import Model.Base Model.Value Model.Exec Model.EnvHeap Spec.EnvSpec
  Proofs.EnvHeapProofs Proofs.EnvEvalProofs.
Import ListNotations.

(** However environments are made, cloned, read, written and dropped, by whatever threads, the parts of the writes
    interleaved in any way: what is seen is what arrays of one's own would show. *)
Theorem C24_threads (es : list event) : exists p, allowed_all [] (snd (happen start es)) p.
Proof. destruct (happen_ok es inv_start) as (p & A & _). exact (ex_intro _ p A). Qed.
Print Assumptions C24_threads.

(** In particular a read of an environment that exists is not altered by anything but a write of, or an end to, that very
    environment. *)
Theorem C24_undisturbed (es others : list event) (h i : nat) :
  let m := fst (happen start es) in
  h < length (m_handles m) -> existsb (touches h) others = false ->
  snd (occur (fst (happen m others)) (EFetch h i)) = snd (occur m (EFetch h i)).
Proof. exact (@fetch_same es others h i). Qed.
Print Assumptions C24_undisturbed.

(** A write comes to its end in at most four steps of its own and one for each variable, whatever others do
    meanwhile. *)
Theorem C24_finishes (es others : list event) (h i : nat) (v : value) (a : addr) (c : cell) :
  let m := fst (happen start es) in
  nth_error (m_handles m) h = Some (Some (Handle a None)) -> nth_error (m_heap m) a = Some c ->
  length (c_data c) + 4 <= length (filter (is_step h) others) ->
  existsb (ended h) (snd (happen (fst (occur m (EBegin h i v))) others)) = true.
Proof. exact (@begun_finishes es others h i v a c). Qed.
Print Assumptions C24_finishes.

(** The counts are those of the environments there are; nothing is freed early or kept. *)
Theorem C24_counts (es : list event) (a : addr) (c : cell) :
  nth_error (m_heap (fst (happen start es))) a = Some c ->
  c_strong c = owners a (m_handles (fst (happen start es))).
Proof. exact (@happen_counts es a c). Qed.
Print Assumptions C24_counts.

(** The test for being the only owner never holds ([weak_count] is compared with 1, and is 0): each write copies. *)
Theorem C24_always_copies (es : list event) (a : addr) (c : cell) :
  nth_error (m_heap (fst (happen start es))) a = Some c -> uniq c = false.
Proof. exact (@happen_weak es a c). Qed.
Print Assumptions C24_always_copies.

(** Code run on shared environments does what the evaluator of C23 and C25 does on environments of its own: the same
    effects and the same value, error or panic; it leaves the contents that one leaves, no other owner of an environment
    sees a change, and no reference is lost. *)
Theorem C24_code (W : Type) (home : env -> addr) (c : list (step W)) (v : value) (a : addr) (F : list addr) (hp : heap)
  (e : env) (w : W) :
  refs (a :: F) hp -> holds hp a e -> homed home (flat_map (@homes W) c) F hp ->
  match eval c v e w with
  | (w', Ok (u, e')) => exists a' hp', h_eval home c v a (w, hp) = ((w', hp'), Ok (u, a')) /\
                                       refs (a' :: F) hp' /\ holds hp' a' e' /\ keep F hp hp'
  | (w', Err n) => exists hp', h_eval home c v a (w, hp) = ((w', hp'), Err n) /\ refs F hp' /\ keep F hp hp'
  | (w', Panic) => exists hp', h_eval home c v a (w, hp) = ((w', hp'), Panic)
  end.
Proof. exact (fun R H Hm => code_outcome c v w R H Hm). Qed.
Print Assumptions C24_code.

(** An argument, whatever it binds, leaves the environment of its caller (and any other) as it was. *)
Theorem C24_argument (W : Type) (home : env -> addr) (h : hold W) (v : value) (a : addr) (F : list addr) (hp : heap)
  (e : env) (w : W) :
  refs (a :: F) hp -> holds hp a e -> homed home (homes_hold h) F hp ->
  exists hp', h_resolve home h v a (w, hp) = ((fst (resolve h v e w), hp'), snd (resolve h v e w)) /\
    (snd (resolve h v e w) <> Panic -> refs (a :: F) hp' /\ keep (a :: F) hp hp').
Proof. exact (fun R H Hm => hold_outcome h v w R H Hm). Qed.
Print Assumptions C24_argument.

(** Two clones of one environment, written at the same time: both copy, each sees its own. *)
Example C24_example_threads :
  let es := [ENew 1; EClone 0; EBegin 0 0 (VStr [1%N]); EBegin 1 0 (VStr [2%N]);
             EStep 0; EStep 1; EStep 1; EStep 0; EStep 0; EStep 1; EStep 1; EStep 0; EStep 0; EStep 1;
             EFetch 0 0; EFetch 1 0] in
  map snd (skipn 12 (snd (happen start es))) = [ODone; ODone; OVal (VStr [1%N]); OVal (VStr [2%N])].
Proof. vm_compute. reflexivity. Qed.

Example C24_example_undisturbed :
  let es := [ENew 2; EClone 0] in
  1 < length (m_handles (fst (happen start es))) /\
  existsb (touches 1) [EBegin 0 1 (VBool true); EStep 0; EStep 0; EStep 0; EStep 0; EStep 0; EStep 0; EFetch 0 1; EDrop 0] = false /\
  nth_error (m_handles (fst (happen start es))) 0 = Some (Some (Handle 0 None)) /\
  nth_error (m_heap (fst (happen start es))) 0 = Some (Cell [VNil; VNil] 2 0).
Proof. vm_compute. repeat split; auto. Qed.

(** [let $x | ... {let $x | \ $x}] with another owner of the environment: the argument binds the same variable. *)
Definition bind_x : step unit := Op [] [Some 0] (fun v => SetVar 0 v (Done v)).
Definition inner : step unit := Op [HExpr [bind_x; Op [HVar 0] [] (fun _ => Resolve 0 VNil (fun x => Done x))]] []
  (fun _ => Resolve 0 (VStr [7%N]) (fun x => Done x)).
Example C24_example_code :
  let hp := [Cell [VBool true] 2 0] in
  refs [0; 0] hp /\ holds hp 0 [VBool true] /\ homed (fun _ => 0) (flat_map (@homes unit) [bind_x; inner]) [0] hp /\
  h_eval (fun _ => 0) [bind_x; inner] (VStr [3%N]) 0 (tt, hp) =
    ((tt, [Cell [VBool true] 1 0; Cell [VStr [3%N]] 1 0; Cell [VStr [7%N]] 0 0]), Ok (VStr [7%N], 1)).
Proof.
  split; [|split; [|split]].
  - split.
    + intros [|[|a]] c H; cbn in H; try discriminate. injection H as <-. split; reflexivity.
    + intros a [<-|[<-|[]]]; cbn; lia.
  - exists (Cell [VBool true] 2 0). split; reflexivity.
  - intros l [].
  - vm_compute. reflexivity.
Qed.
