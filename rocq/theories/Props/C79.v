(** C79: help and the listing show every definition once, and asking for help runs nothing. *)
From Coq Require Import String List ZArith NArith Bool Arith Lia Sorted Permutation.
From Verif Require Import Model.Base Model.Value Model.TableCrate Model.Ast Model.Registry Model.HelpList Spec.SortSpec Spec.RegistrySpec Spec.HelpSpec
  Proofs.SortProofs Proofs.RegistrySamples Proofs.HelpProofs.
Import ListNotations.

(** The help of an op has a paragraph for every implementation of it, once, in the order of the names of the input types, any input first; there is none exactly if
    there is no implementation. *)
Theorem C79_help : forall so tys_order hp m op, unstable_contract so -> (forall l, Permutation l (tys_order l)) -> wf_impls m ->
  exists es, NoDup (map fst es) /\ (forall key i, In (key, i) es <-> implemented m op key i) /\ StronglySorted (fun a b => sooner (fst a) (fst b)) es /\
    get_help_all so tys_order hp m op = match es with [] => None | _ => Some (paragraphs (map (fun e => shown_help (hp (snd e)) (fst e)) es)) end.
Proof. exact (fun so o hp m op SO O => help_shows so SO o O hp m op). Qed.
Print Assumptions C79_help.

(** The text of one implementation *)
Example C79_text_example :
  shown_help (Help (lit "f") (lit "do f") [HRequired (lit "a"); HBreak; HOptional (lit "b")] false [(lit "q", lit "quiet")] [(lit "an f", lit "f 1")]) (Some TNum) =
  joined [lit "---- Input Type: Number ----"; lit "do f"; []; lit "Usage:"; lit " => f a"; lit " => f  [b]"; []; lit "Flags:"; lit " --q: quiet"; []; lit "Examples:"; lit " an f"; lit " => f 1"; []].
Proof. vm_compute. reflexivity. Qed.

(** It does not depend on the order of the hash map, if the input types are shown with different names. *)
Theorem C79_same : forall so so' o o' hp m op, unstable_contract so -> unstable_contract so' -> (forall l, Permutation l (o l)) -> (forall l, Permutation l (o' l)) -> wf_impls m ->
  (forall t u i j, implemented m op (Some t) i -> implemented m op (Some u) j -> shown_name t = shown_name u -> t = u) ->
  get_help_all so o hp m op = get_help_all so' o' hp m op.
Proof. exact help_same. Qed.
Print Assumptions C79_same.

(** If the first block has the flag, the help of its op is all that comes of the expression, whatever compiling and evaluating would do. *)
Theorem C79_runs_nothing : forall so o hp P V parse (compile : expr -> res P) (eval : P -> res V) m text e n,
  parse text = Ok e -> asks_help e -> first_op e n ->
  process_expression so o hp parse compile eval m text = match get_help_all so o hp m n with Some t => Helps V t | None => Fails V 1 end.
Proof. exact help_only. Qed.
Print Assumptions C79_runs_nothing.
(** Otherwise the expression is compiled and evaluated. *)
Theorem C79_runs : forall so o hp P V parse (compile : expr -> res P) (eval : P -> res V) m text e, parse text = Ok e -> ~ asks_help e ->
  process_expression so o hp parse compile eval m text =
  match compile e with
  | Ok p => match eval p with Ok v => Gives v | Err x => Fails V x | Panic => Crashes V end
  | Err x => Fails V x
  | Panic => Crashes V
  end.
Proof. exact help_not. Qed.
Print Assumptions C79_runs.

(** The listing has a header, then a row for every implementation, once, in the order of the names of the ops. *)
Theorem C79_list : forall so tys_order ops_order cat src m, sort_contract so -> (forall l, Permutation l (tys_order l)) -> (forall l, Permutation l (ops_order l)) -> wf_impls m ->
  exists es rows, def_table so tys_order ops_order cat src m = map (fun h => EObj (VStr (lit h))) ["name"; "category"; "input"; "location"; "line"; "code"]%string :: rows /\
    NoDup (map fst es) /\ (forall op key i, In (op, key, i) es <-> implemented m op key i) /\
    Forall2 (fun e row => listed cat src (fst (fst e)) (snd (fst e)) (snd e) row) es rows /\
    StronglySorted (fun a b => str_cmp (fst (fst a)) (fst (fst b)) <> Gt) es.
Proof. exact table_spec. Qed.
Print Assumptions C79_list.

Definition a_help (i : impl) : help := Help (lit "eq") (lit "same") [HRequired (lit "rhs")] false [] [].
Definition help_ex : expr := ex [blk "eq" [TFlag (tg "help")]; blk "get" []].
(** The help of [eq], with its two input types *)
Example C79_example :
  unstable_contract usort /\ wf_impls (df_impls sample) /\ asks_help help_ex /\ first_op help_ex (lit "eq") /\
  process_expression usort (@rev _) a_help (fun _ => Ok help_ex) (fun _ => Panic) (fun _ : unit => @Panic unit) (df_impls sample) (lit "eq --help | get") =
  Helps unit (lit "---- Input Type: Number ----" ++ nl ++ lit "same" ++ nl ++ nl ++ lit "Usage:" ++ nl ++ lit " => eq rhs" ++ nl ++ nl ++
              lit "---- Input Type: String ----" ++ nl ++ lit "same" ++ nl ++ nl ++ lit "Usage:" ++ nl ++ lit " => eq rhs") /\
  get_help_all usort (@rev _) a_help (df_impls sample) (lit "nope") = None.
Proof.
  split; [exact usort_contract|]. split; [exact (proj1 (proj1 sample_built_in))|].
  split; [eexists _, _, (tg "help"); split; [reflexivity|]; split; [now left|reflexivity]|].
  split; [eexists _, _, _; split; [reflexivity|]; split; reflexivity|]. split; vm_compute; reflexivity.
Qed.
(** The listing of five implementations *)
Example C79_list_example :
  sort_contract isort /\
  map (fun r => (r_name r, r_input r, r_code r))
    (def_rows isort (fun l => l) (fun l => l) (fun _ => lit "cmp") (fun _ => lit "def = rhs { eq $rhs }") (df_impls sample)) =
  [(lit "=", None, Some (lit "= rhs { eq $rhs }")); (lit "\", None, None); (lit "eq", Some (lit "Number"), None); (lit "eq", Some (lit "String"), None); (lit "get", None, None)].
Proof. split; [exact isort_contract|]. vm_compute. reflexivity. Qed.

(** The rows are sorted by input type first, with a comparison that says of two rows without an input type that each is less than the other.  That is not an order, so
    the sort of the standard library promises nothing about the order of the input types of an op (and recent versions of it may panic). *)
Theorem C79_list_order_refuted : exists a b, input_cmp a b = Lt /\ input_cmp b a = Lt.
Proof. exists (DRow [] [] None [] None None), (DRow [] [] None [] None None). split; reflexivity. Qed.
Print Assumptions C79_list_order_refuted.

(** The flag is looked for in the first block only: [get | eq --help] is compiled and run. *)
Theorem C79_later_refuted : exists e : expr, (exists b f, In b (ex_blocks e) /\ In (TFlag f) (blk_terms b) /\ tg_str f = lit "help") /\
  forall so o hp P V (compile : expr -> res P) (eval : P -> res V) m text v p, compile e = Ok p -> eval p = Ok v ->
  process_expression so o hp (fun _ => Ok e) compile eval m text = Gives v.
Proof.
  exists (ex [blk "get" []; blk "eq" [TFlag (tg "help")]]). split.
  - exists (blk "eq" [TFlag (tg "help")]), (tg "help"). split; [right; now left|]. split; [now left|reflexivity].
  - intros so o hp P V compile eval m text v p C E. unfold process_expression. cbn [answered handle_help]. cbn. rewrite C. cbn. now rewrite E.
Qed.
Print Assumptions C79_later_refuted.

(** Asking for help on an op written as a path, such as [a/b --help], panics. *)
Theorem C79_path_refuted : exists e, asks_help e /\
  forall so o hp P V (compile : expr -> res P) (eval : P -> res V) m text, process_expression so o hp (fun _ => Ok e) compile eval m text = Crashes V.
Proof.
  exists (ex [BPrefix (OpPath [tg "a"; tg "b"] 0 false) [TFlag (tg "help")] None None]). split; [|intros; reflexivity].
  eexists _, _, (tg "help"). split; [reflexivity|]. split; [now left|reflexivity].
Qed.
Print Assumptions C79_path_refuted.

Definition number_ty : ty := TDef (TyDef (lit "Number") (TSum [])).
Definition two_helps (i : impl) : help := Help (lit "f") (match i with IIntrinsic _ _ => lit "one" | IDef _ => lit "two" end) [] false [] [].
Definition two_numbers : impls :=
  [(lit "f", Keys [(TNum, IIntrinsic LOgma (IBuiltin 0)); (number_ty, IDef (df LShell "f" (Some "Number"%string) [] [blk "get" []]))] None)].
(** The built-in type [Num] is shown as [Number], and a user can define a type called [Number].  The help of an op for both has two paragraphs with the same heading, in
    an order that depends on the hash map. *)
Theorem C79_number_refuted : exists hp m op o o', wf_impls m /\ (forall l, Permutation l (o l)) /\ (forall l, Permutation l (o' l)) /\
  get_help_all usort o hp m op <> get_help_all usort o' hp m op.
Proof.
  exists two_helps, two_numbers, (lit "f"), (fun l => l), (@rev _). split; [|split; [|split]].
  - split; [repeat constructor; intros []|]. intros op k [I|[]] i j a b A B E. injection I as <- <-. cbn in A, B.
    destruct i as [|[|[|i]]], j as [|[|[|j]]]; cbn in A, B; try discriminate; auto; injection A as <-; injection B as <-; discriminate.
  - intros l. apply Permutation_refl.
  - intros l. apply Permutation_rev.
  - vm_compute. discriminate.
Qed.
Print Assumptions C79_number_refuted.
