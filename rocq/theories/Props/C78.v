(** C78: what is defined after loading definitions. *)
From Coq Require Import String List ZArith NArith Bool Arith Lia Permutation.
From Verif Require Import Model.Base Model.Utf Model.Value Model.Ast Model.Parse Model.Registry Model.ParseTy Model.File Model.Load Spec.RegistrySpec Spec.LoadSpec
  Proofs.RegistryProofs Proofs.LoadProofs Proofs.LoadOrder Proofs.ParseSamples Proofs.RegistrySamples.
Import ListNotations.

(** A text without the flags of [def] is accepted exactly if it is a definition that can be added; otherwise nothing changes. *)
Theorem C78_text : forall k l t s s', plain t -> (process_definition k l t s = (Ok tt, s') <-> accepted k s l t s').
Proof. exact text_accepted. Qed.
Print Assumptions C78_text.
Theorem C78_refused : forall k l t s r s', wf s -> process_definition k l t s = (r, s') -> r <> Ok tt -> s' = s.
Proof. exact refused_text. Qed.
Print Assumptions C78_refused.

(** The definitions of a file are added one after the other, types first, up to the first that is refused; the count is that of all. *)
Theorem C78_file : forall k path text f s r s', wf s -> parse_file k text = Ok f ->
  Forall (fun x => plain (it_code x)) (map snd (fl_types f ++ fl_impls f)) -> add_from_str k path text s = (r, s') ->
  exists done rest, map snd (fl_types f ++ fl_impls f) = done ++ rest /\ loads k path s done s' /\
    match r with
    | Ok m => rest = [] /\ m = length (fl_types f) + length (fl_impls f)
    | _ => exists x xs, rest = x :: xs /\ forall s'', ~ accepted k s' (LFile path (it_line x)) (it_code x) s''
    end.
Proof. exact file_spec. Qed.
Print Assumptions C78_file.

(** Loading all files gives the same whatever was defined or loaded before, unless a built-in op was replaced by a constructor. *)
Theorem C78_reload : forall k base cs files s, built_in base -> full base -> Forall by_user cs -> s = snd (run false base cs) -> intact base s ->
  def_load k files s = def_load k files base.
Proof. exact reload. Qed.
Print Assumptions C78_reload.
Theorem C78_twice : forall k base files other s, built_in base -> full base -> s = snd (def_load k other base) -> intact base s ->
  def_load k files s = def_load k files base.
Proof. exact load_twice. Qed.
Print Assumptions C78_twice.

(** Definitions of different things that are accepted in two orders define the same. *)
Theorem C78_any_order : forall s cs cs' rs s1 rs' s2, wf s -> Permutation cs cs' -> run false s cs = (rs, s1) -> run false s cs' = (rs', s2) ->
  Forall (eq (Ok tt)) rs -> Forall (eq (Ok tt)) rs' -> (forall f, ~ In (CClear f) cs) -> apart (df_types s1) cs ->
  (forall n, get_type (df_types s1) n = get_type (df_types s2) n) /\ (forall op key, at_key (df_impls s1) op key = at_key (df_impls s2) op key).
Proof. exact any_order. Qed.
Print Assumptions C78_any_order.

(** ** Examples *)
Definition gap : str := [10; 10]%N.
Definition def_f : str := lit "def f () { get x }".
Definition def_x : str := lit "def x () { get 1 }".
Definition def_g : str := lit "def g () { h }".
Definition def_T : str := lit "def-ty T { a:Num }".
Lemma sample_full : full sample.
Proof. intros op ks I. cbn in I. destruct I as [I|[I|[I|[I|[]]]]]; injection I as <- <-; cbn; first [left; discriminate|right; discriminate]. Qed.
Lemma not_within : forall w t, within w t = false -> ~ has w t.
Proof. intros w t H X. apply within_spec in X. congruence. Qed.

Example C78_example : plain def_f /\ plain def_T /\ plain def_g /\ wf sample /\ built_in sample /\ full sample /\
  (exists f, parse_file ascii (def_f ++ gap ++ def_g ++ gap ++ def_x ++ gap ++ def_T) = Ok f /\
     map snd (fl_types f ++ fl_impls f) = [Item None def_T 7; Item None def_f 1; Item None def_g 3; Item None def_x 5]) /\
  (let (r, s) := add_from_str ascii (lit "a") (def_f ++ gap ++ def_x ++ gap ++ def_T) sample in
   r = Ok 3 /\ get_type (df_types s) (lit "T") <> None /\ contains_op (df_impls s) (lit "f") = true /\ contains_op (df_impls s) (lit "x") = true /\ intact sample s) /\
  (let (r, s) := add_from_str ascii (lit "a") (def_f ++ gap ++ def_g ++ gap ++ def_x ++ gap ++ def_T) sample in
   r = Err 6 /\ get_type (df_types s) (lit "T") <> None /\ contains_op (df_impls s) (lit "f") = true /\ contains_op (df_impls s) (lit "x") = false).
Proof.
  split; [repeat split; apply not_within; reflexivity|]. split; [repeat split; apply not_within; reflexivity|]. split; [repeat split; apply not_within; reflexivity|].
  split; [apply sample_built_in|]. split; [apply sample_built_in|]. split; [apply sample_full|].
  split; [eexists; split; vm_compute; reflexivity|]. split; [|vm_compute; split; [reflexivity|split; [intros X; discriminate X|split; reflexivity]]].
  destruct (add_from_str ascii (lit "a") (def_f ++ gap ++ def_x ++ gap ++ def_T) sample) as [r s] eqn:E.
  vm_compute in E. injection E as <- <-. split; [reflexivity|]. split; [vm_compute; discriminate|]. split; [reflexivity|]. split; [reflexivity|].
  intros op i. let m := eval vm_compute in (df_impls sample) in change (df_impls sample) with m. unfold at_key. cbn [df_impls find fst].
  repeat match goal with |- context [str_eqb ?a op] => destruct (str_eqb a op); [auto; fail|] end. discriminate.
Qed.

(** An op and a type, in both orders *)
Definition c1 : cmd := CDef (df file "f" None [] [blk "get" [num 1]]).
Definition c2 : cmd := CDefTy (PType file (lit "T") (PProduct [PField (lit "a") (lit "Num") []])).
Example C78_order_example : exists s1 s2, run false sample [c1; c2] = ([Ok tt; Ok tt], s1) /\ run false sample [c2; c1] = ([Ok tt; Ok tt], s2) /\ apart (df_types s1) [c1; c2] /\ s1 <> s2.
Proof.
  eexists _, _. split; [vm_compute; reflexivity|]. split; [vm_compute; reflexivity|]. split; [|discriminate].
  intros a x b y c op key i j E DX DY.
  assert (X : a = [] /\ x = c1 /\ b = [] /\ y = c2).
  { destruct a as [|a0 a]; cbn in E; injection E as <- E.
    - destruct b as [|b0 b]; cbn in E; injection E as <- E; [auto|]. destruct b; discriminate.
    - destruct a as [|a1 a]; cbn in E; injection E as <- E; [destruct b; discriminate|]. destruct a; discriminate. }
  destruct X as (-> & -> & -> & ->). destruct DX as (_ & DX & _). destruct DY as (_ & d & v & G & K & _). vm_compute in G. injection G as <-.
  subst op. vm_compute in K. discriminate.
Qed.

(** A definition with the text of the flag [--clear] somewhere in it clears all definitions, is itself not added, and counts as added. *)
Theorem C78_clear_refuted : exists t s s', t = lit "def g () { get 'a --clear' }" /\ s = snd (process_definition ascii LShell def_f sample) /\
  contains_op (df_impls s) (lit "f") = true /\ (exists rest r, definition_impl ascii t = POk rest r) /\
  process_definition ascii LShell t s = (Ok tt, s') /\ contains_op (df_impls s') (lit "f") = false /\ contains_op (df_impls s') (lit "g") = false.
Proof. do 3 eexists. split; [reflexivity|]. split; [vm_compute; reflexivity|]. split; [reflexivity|]. split; [do 2 eexists; vm_compute; reflexivity|]. split; [vm_compute; reflexivity|]. split; reflexivity. Qed.
(** A definition that uses a flag [--list] is not added, and counts as added. *)
Theorem C78_list_refuted : exists t, t = lit "def g () { get 1 --list }" /\ (exists rest r, definition_impl ascii t = POk rest r) /\
  process_definition ascii LShell t sample = (Ok tt, sample) /\ contains_op (df_impls sample) (lit "g") = false.
Proof. eexists. split; [reflexivity|]. split; [do 2 eexists; vm_compute; reflexivity|]. split; reflexivity. Qed.
(** A definition with the text of the flag [--help] somewhere in it is refused, with the help of [def]. *)
Theorem C78_help_refuted : exists t, t = lit "def g () { get 'see --help' }" /\ (exists rest r, definition_impl ascii t = POk rest r) /\
  process_definition ascii LShell t sample = (Err 8, sample).
Proof. eexists. split; [reflexivity|]. split; [do 2 eexists; vm_compute; reflexivity|]. reflexivity. Qed.
(** [def-ty] with one of these panics. *)
Theorem C78_type_flag_refuted : forall f, In f ["--help"; "--list"; "--clear"]%string -> process_definition ascii LShell (lit "def-ty " ++ lit " " ++ lit f) sample = (Panic, sample).
Proof. intros f I. repeat (destruct I as [<-|I]; [reflexivity|]). destruct I. Qed.
(** The language server loads files in the order of a hash map: whether an op that uses one of another file is defined depends on that order. *)
Theorem C78_order_refuted : exists a b, contains_op (df_impls (snd (def_load ascii [a; b] sample))) (lit "h") = true /\ contains_op (df_impls (snd (def_load ascii [b; a] sample))) (lit "h") = false.
Proof. exists (lit "a", def_x), (lit "b", lit "def h () { x }"). vm_compute. auto. Qed.
(** Even if all files load in each order, an op may mean something else: a word that names an op known so far is a call, otherwise a text. *)
Theorem C78_meaning_refuted : exists a b, a = (lit "a", def_f) /\ b = (lit "b", def_x) /\
  (forall x, In x [lit "f"; lit "x"] -> contains_op (df_impls (snd (def_load ascii [a; b] sample))) x = true /\ contains_op (df_impls (snd (def_load ascii [b; a] sample))) x = true) /\
  at_key (df_impls (snd (def_load ascii [a; b] sample))) (lit "f") None <> at_key (df_impls (snd (def_load ascii [b; a] sample))) (lit "f") None.
Proof.
  eexists _, _. split; [reflexivity|]. split; [reflexivity|]. split; [|vm_compute; discriminate].
  intros x [<-|[<-|[]]]; vm_compute; auto.
Qed.
