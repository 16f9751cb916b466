(** C81: the language server with its threads. *)
From Coq Require Import String List ZArith NArith Bool Arith Lia Permutation.
From Verif Require Import Model.Base Model.Value Model.Registry Model.Utf Model.Lsp Model.Server Spec.LspSpec Spec.ServerSpec Proofs.ServerProofs.
Import ListNotations.

(** However the threads take turns: once everything is dealt with, every request that has a handler has been answered exactly once. *)
Theorem C81_answered : forall bc Q R D (load : list (str * file) -> D) (call : str -> Q -> list (str * file) -> D -> R) choices files d ms s,
  run bc load call choices (start R files d ms) = Ok s -> finished s -> Permutation (map fst (s_out s)) (asked ms).
Proof. exact answered_once. Qed.
Print Assumptions C81_answered.

(** However the threads take turns: once everything is dealt with, a document that was open has all its changes applied in the order of their versions. *)
Theorem C81_document : forall bc Q R D (load : list (str * file) -> D) (call : str -> Q -> list (str * file) -> D -> R) u choices files d ms s t v css,
  run bc load call choices (start R files d ms) = Ok s -> finished s -> not_opened u ms ->
  alookup str_eqb u files = Some (file_new t v) -> (i32_min <= v)%Z -> (v + Z.of_nat (length css) <= i32_max)%Z -> Permutation (edits u ms) (numbered v css) ->
  exists t', apply_all bc css t = Ok t' /\ document u s (File t' (v + Z.of_nat (length css)) []).
Proof. exact document_final. Qed.
Print Assumptions C81_document.

(** And at any time its text is one the editor had: that after the first [k] changes. *)
Theorem C81_meanwhile : forall bc Q R D (load : list (str * file) -> D) (call : str -> Q -> list (str * file) -> D -> R) u choices files d ms s t v css,
  run bc load call choices (start R files d ms) = Ok s -> not_opened u ms ->
  alookup str_eqb u files = Some (file_new t v) -> (i32_min <= v)%Z -> (v + Z.of_nat (length css) <= i32_max)%Z -> Permutation (edits u ms) (numbered v css) ->
  exists k t' pending, k <= length css /\ apply_all bc (firstn k css) t = Ok t' /\ document u s (File t' (v + Z.of_nat k) pending).
Proof. exact document_meanwhile. Qed.
Print Assumptions C81_meanwhile.

(** Definitions are the texts they were loaded from; answers to requests are the texts of all documents. *)
Definition texts (fs : list (str * file)) : list str := map (fun e => f_text (snd e)) fs.
Definition go (choices : list nat) (fs : list (str * file)) (ms : list (msg unit)) := run false texts (fun _ _ fs _ => texts fs) choices (start (list str) fs [] ms).
Definition add_at (n : nat) (s : string) : list change := [Change (Some (Pos 0 n, Pos 0 n)) (lit s)].
Definition one_file : list (str * file) := [(lit "u", file_new (lit "b") 1)].
Definition hover (id : nat) : msg unit := MRequest id (lit "textDocument/hover") tt.

(** Two changes and two requests; the second change and the second request are handled first. *)
Example C81_example : exists s,
  go [0; 0; 0; 0; 4; 3; 1; 2] one_file [hover 1; MChange (lit "u") 2 (add_at 1 "c"); MChange (lit "u") 3 (add_at 0 "a"); hover 2] = Ok s /\ finished s /\
  not_opened (lit "u") [hover 1; MChange (lit "u") 2 (add_at 1 "c"); MChange (lit "u") 3 (add_at 0 "a"); hover 2] /\
  edits (lit "u") [hover 1; MChange (lit "u") 2 (add_at 1 "c"); MChange (lit "u") 3 (add_at 0 "a"); hover 2] = numbered 1 [add_at 1 "c"; add_at 0 "a"] /\
  s_files s = [(lit "u", File (lit "abc") 3 [])] /\ s_out s = [(2, [lit "b"]); (1, [lit "b"])].
Proof.
  eexists. split; [vm_compute; reflexivity|]. split; [split; [reflexivity|]; intros t I; cbn in I; intuition congruence|].
  split; [intros v t I; cbn in I; intuition discriminate|]. vm_compute. auto.
Qed.

(** A document is opened and changed.  If the thread with the change runs first the change is dropped, and all later changes wait for it for ever: the server keeps the text
    that was opened. *)
Theorem C81_open_refuted : exists choices ms s,
  ms = [MOpen (lit "u") 1 (lit "b"); MChange (lit "u") 2 (add_at 1 "c"); MChange (lit "u") 3 (add_at 0 "a")] /\
  go choices [] ms = Ok s /\ finished s /\ exists pending, pending <> [] /\ document (lit "u") s (File (lit "b") 1 pending).
Proof.
  eexists [0; 0; 0; 2; 1; 1; 3], _, _. split; [reflexivity|]. split; [vm_compute; reflexivity|]. split; [split; [reflexivity|]; intros t I; cbn in I; intuition congruence|].
  eexists. split; [|vm_compute; reflexivity]. discriminate.
Qed.
Print Assumptions C81_open_refuted.

(** A document is changed and saved.  If the thread with the saving runs first the definitions are those before the change, and stay so. *)
Theorem C81_save_refuted : exists choices ms s, ms = [MChange (lit "u") 2 (add_at 1 "c"); MSave] /\ go choices one_file ms = Ok s /\ finished s /\
  texts (s_files s) = [lit "bc"] /\ s_defs s = [lit "b"].
Proof.
  eexists [0; 0; 2; 1], _, _. split; [reflexivity|]. split; [vm_compute; reflexivity|]. split; [split; [reflexivity|]; intros t I; cbn in I; intuition congruence|]. vm_compute. auto.
Qed.
Print Assumptions C81_save_refuted.

(** A request sent after a change can be answered from the text before it. *)
Theorem C81_stale_refuted : exists choices ms s, ms = [MChange (lit "u") 2 (add_at 1 "c"); hover 1] /\ go choices one_file ms = Ok s /\ finished s /\ s_out s = [(1, [lit "b"])].
Proof.
  eexists [0; 0; 2; 1], _, _. split; [reflexivity|]. split; [vm_compute; reflexivity|]. split; [split; [reflexivity|]; intros t I; cbn in I; intuition congruence|]. vm_compute. auto.
Qed.
Print Assumptions C81_stale_refuted.

(** The server says on [initialize] that it can find definitions, but has no handler for it: such a request, like any other unknown one, is never answered, not even with an error. *)
Theorem C81_unknown_refuted : exists ms s, ms = [MRequest 1 (lit "textDocument/definition") tt] /\ go [0; 1] one_file ms = Ok s /\ finished s /\ s_out s = [].
Proof.
  eexists _, _. split; [reflexivity|]. split; [vm_compute; reflexivity|]. split; [split; [reflexivity|]; intros t I; cbn in I; intuition congruence|]. reflexivity.
Qed.
Print Assumptions C81_unknown_refuted.
