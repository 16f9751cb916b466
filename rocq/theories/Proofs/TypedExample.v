(** Programs: what is sound, and what is not when the conditions fail. *)
From Coq Require Import String List ZArith NArith Bool Lia.
From Verif Require Import Model.Base Model.Value Model.Tuple Model.Exec Model.Intrinsics Model.Compare Model.Typed Spec.TableSpec
  Spec.TypingSpec Model.TableOps Proofs.SortProofs Proofs.RegistryProofs Proofs.TypedOps Proofs.TypedCompile.
Import ListNotations.

Theorem program_type (W : Type) (U : ty -> Prop) in_ty bs (code : list (step W)) t fs n v w w' x e : universe U ->
  compile (no_locals W) in_ty bs = Ok (code, t, fs) -> Forall proper_blk bs ->
  Forall U (in_ty :: types_used fs) -> NoDup (slots_used fs) -> Forall (fun s => s < n) (slots_used fs) -> is_a U v in_ty ->
  eval code v (env_new n) w = (w', Ok (x, e)) -> ty_of x = t.
Proof.
  intros HU H P T N S V E. destruct (program_sound W U in_ty bs code t fs n v w HU H P T N S V) as [_ B]. rewrite E in B.
  eapply is_a_ty. exact B.
Qed.
Lemma compile_parts W (g : tscope W) in_ty t b bs code fs :
  compile g in_ty (b :: bs) = Ok (code, t, fs) <->
  exists s u g' fs1 rest fs2, compile_blk g in_ty b = Ok (s, u, g', fs1) /\ compile g' u bs = Ok (rest, t, fs2) /\
    code = s :: rest /\ fs = fs1 ++ fs2.
Proof.
  cbn [compile]. split.
  - intro H. destruct (compile_blk g in_ty b) as [[[[s u] g'] fs1]| |]; try discriminate. cbn [rbind] in H.
    destruct (compile g' u bs) as [[[rest t'] fs2]| |] eqn:E; try discriminate. cbn [rbind] in H. injection H as <- <- <-.
    exists s, u, g', fs1, rest, fs2. auto.
  - intros (s & u & g' & fs1 & rest & fs2 & E1 & E2 & -> & ->). rewrite E1. cbn [rbind]. rewrite E2. reflexivity.
Qed.

(** to run a program and look at the outcome only *)
Definition outcome (p : unit * res (value * env)) : res value :=
  match snd p with Ok (x, _) => Ok x | Err n => Err n | Panic => Panic end.
Definition trial (in_ty : ty) (bs : list block) (n : nat) (vs : list value) : option (ty * list fact * list (res value)) :=
  match compile (no_locals unit) in_ty bs with
  | Ok (c, t, fs) => Some (t, fs, map (fun v => outcome (eval c v (env_new n) tt)) vs)
  | _ => None
  end.
Lemma trial_ran in_ty bs n vs t fs rs : trial in_ty bs n vs = Some (t, fs, rs) ->
  exists c, compile (no_locals unit) in_ty bs = Ok (c, t, fs) /\ map (fun v => outcome (eval c v (env_new n) tt)) vs = rs.
Proof.
  unfold trial. destruct (compile _ in_ty bs) as [[[c t'] fs']| |]; try discriminate. intro H. injection H as <- <- <-. eauto.
Qed.
Lemma outcome_ok p x : outcome p = Ok x -> exists e, p = (tt, Ok (x, e)).
Proof. destruct p as [[] [[y e]| |]]; cbn; try discriminate. intro H. injection H as <-. eauto. Qed.
Lemma outcome_err p n : outcome p = Err n -> snd p = Err n.
Proof. destruct p as [[] [[y e]| |]]; cbn; try discriminate. intro H. injection H as <-. reflexivity. Qed.

(** ** an example *)
Definition pair_ty : tydef := tuple_ty [TNum; TBool].
Definition example_types (t : ty) : Prop := In t [TNil; TBool; TNum; TStr; TTab; TTabRow; TOrd; TDef pair_ty].
Definition example_program : list block :=
  [KLet [(Arg TTab TNum (AExpr [KOp PIn (fun _ => 0) [Arg TTab TNum (ALit (LNum 2))]]), (lit "n", Some 0))] None;
   KOp PFold (fun _ => 1)
     [Arg TNil TNum (ALit (LNum 0));
      Arg TNum TNum (AExpr [KOp (PNums Z.add) (fun _ => 0)
        [Arg TNum TNum (AExpr [KOp (PDot TNum) (fun _ => 0) [Arg TNum TTabRow (AVar (lit "row")); Arg TNil TStr (ALit (LStr (lit "x")))]])]])];
   KCall [(lit "y", PEager 2 (Some TNum))] [Arg TNum TNum (AVar (lit "n"))]
     [KOp (PNums Z.mul) (fun _ => 0) [Arg TNum TNum (AVar (lit "y"))]];
   KOp PTuple (fun _ => 0) [Arg TNum TNum AInput; Arg TNum TBool (AExpr [KOp PEq (fun _ => 0) [Arg TNum TNum (ALit (LNum 12))]])]].
Definition example_table : table := [[o (lit "x"); o (lit "y")]; [ENum 1; ENil]; [ENum 5; EObj (VTab [])]].

Lemma example_universe : universe example_types.
Proof.
  assert (C : forall t, example_types t -> t = TNil \/ t = TBool \/ t = TNum \/ t = TStr \/ t = TTab \/ t = TTabRow \/ t = TOrd \/ t = TDef pair_ty).
  { intros t H. unfold example_types in H. cbn [In] in H. intuition (subst; auto 10). }
  split.
  - intros a b Ha Hb. apply C in Ha, Hb.
    repeat (destruct Ha as [->|Ha]; [repeat (destruct Hb as [->|Hb]; [cbn; congruence|]); subst; first [discriminate|vm_compute; discriminate]|]); subst.
    repeat (destruct Hb as [->|Hb]; [first [discriminate|vm_compute; discriminate]|]); subst. reflexivity.
  - unfold example_types. repeat (constructor; [cbn [In]; tauto|]). constructor.
  - intros d k fs x t H E Hin. apply C in H. repeat (destruct H as [H|H]; [discriminate|]).
    destruct H as [H|H]; injection H as ->.
    + unfold variant_fields in E. cbn [td_tv ord_tydef] in E. destruct k as [|[|[|k]]]; cbn in E; try (injection E as <-; destruct Hin). destruct k; discriminate.
    + unfold variant_fields, pair_ty, tuple_ty in E. cbn [td_tv] in E. destruct k; [|discriminate]. injection E as <-.
      cbn in Hin. unfold example_types. cbn [In]. destruct Hin as [Hin|[Hin|[]]]; injection Hin as _ <-; tauto.
  - intros d H T. apply C in H. repeat (destruct H as [H|H]; [discriminate|]). destruct H as [H|H]; injection H as ->; [discriminate T|].
    exists [TNum; TBool]. split; [discriminate|reflexivity].
Qed.
Lemma example_meets :
  exists code fs,
    compile (no_locals unit) TTab example_program = Ok (code, TDef (tuple_ty [TNum; TBool]), fs) /\
    Forall proper_blk example_program /\ Forall example_types (TTab :: types_used fs) /\
    NoDup (slots_used fs) /\ Forall (fun s => s < 3) (slots_used fs) /\ is_a example_types (VTab example_table) TTab /\
    exists e, eval code (VTab example_table) (env_new 3) tt = (tt, Ok (VOgma (tuple_ty [TNum; TBool]) 0 [VNum 12; VBool true], e)).
Proof.
  destruct (trial_ran TTab example_program 3 [VTab example_table] _ _ _ eq_refl) as (code & E & R).
  exists code. eexists. split; [exact E|].
  split; [repeat (first [apply Forall_cons|apply Forall_nil|apply NoDup_nil|constructor; [intros []|]|constructor])|].
  split; [unfold example_types; repeat (apply Forall_cons; [cbn; tauto|]); apply Forall_nil|].
  split; [cbn; repeat (constructor; [cbn; intuition discriminate|]); constructor|].
  split; [cbn; repeat (apply Forall_cons; [lia|]); apply Forall_nil|].
  split.
  - constructor.
    + intros r s Hr Hs. cbn in Hr, Hs. intuition (subst; reflexivity).
    + intros r v Hr Hv. cbn in Hr. assert (K : v = VTab [] \/ exists s, v = VStr s).
      { destruct Hr as [<-|[<-|[<-|[]]]]; cbn in Hv; destruct Hv as [Hv|[Hv|[]]]; try discriminate; injection Hv as <-; eauto. }
      destruct K as [->|[s ->]]; (split; [unfold example_types; cbn; tauto|constructor]); intros ? ? [].
  - injection R as R. apply outcome_ok. exact R.
Qed.
Lemma example_fails :
  exists code t fs, compile (no_locals unit) TTab example_program = Ok (code, t, fs) /\
    snd (eval code (VTab [[o (lit "y")]; [ENum 1]]) (env_new 3) tt) = Err 11 /\
    snd (eval code (VTab [[o (lit "x")]; [o (lit "one")]]) (env_new 3) tt) = Err 12.
Proof.
  destruct (trial_ran TTab example_program 3 [VTab [[o (lit "y")]; [ENum 1]]; VTab [[o (lit "x")]; [o (lit "one")]]] _ _ _ eq_refl) as (code & E & R).
  exists code. do 2 eexists. split; [exact E|]. injection R as R1 R2. split; apply outcome_err; assumption.
Qed.

(** ** a name bound twice *)
Definition rebind_program : list block :=
  [KLet [(Arg TNil TNum (ALit (LNum 1)), (lit "a", Some 0)); (Arg TNil TStr (ALit (LStr (lit "x"))), (lit "a", Some 1))] None;
   KOp PIn (fun _ => 0) [Arg TNil TNum (AVar (lit "a"))]].
Definition plus_one : block := KOp (PNums Z.add) (fun _ => 0) [Arg TNum TNum (ALit (LNum 1))].
Lemma rebind_breaks :
  ~ (forall (U : ty -> Prop) (in_ty t : ty) (bs : list block) (code : list (step unit)) (fs : list fact) (n : nat) (v : value),
       universe U -> compile (no_locals unit) in_ty bs = Ok (code, t, fs) ->
       Forall U (in_ty :: types_used fs) -> NoDup (slots_used fs) -> Forall (fun s => s < n) (slots_used fs) -> is_a U v in_ty ->
       behaves (fun p => is_a U (fst p) t) (snd (eval code v (env_new n) tt))) /\
  exists code fs, compile (no_locals unit) TNil rebind_program = Ok (code, TNum, fs) /\
    (exists e, eval code VNil (env_new 2) tt = (tt, Ok (VStr (lit "x"), e))) /\
    exists code' fs', compile (no_locals unit) TNil (rebind_program ++ [plus_one]) = Ok (code', TNum, fs') /\
      snd (eval code' VNil (env_new 2) tt) = Err 1.
Proof.
  split.
  - intro H. destruct (trial_ran TNil rebind_program 2 [VNil] _ _ _ eq_refl) as (code & E & R). injection R as R. apply outcome_ok in R. destruct R as [e R].
    assert (B := H example_types TNil _ rebind_program code _ 2 VNil example_universe E). clear H. rewrite R in B.
    assert (X : is_a example_types (VStr (lit "x")) TNum); [|inversion X]. apply B.
    + unfold example_types. repeat (apply Forall_cons; [cbn; tauto|]); apply Forall_nil.
    + cbn. repeat (constructor; [cbn; intuition discriminate|]). constructor.
    + cbn. repeat (apply Forall_cons; [lia|]). apply Forall_nil.
    + constructor.
  - destruct (trial_ran TNil rebind_program 2 [VNil] _ _ _ eq_refl) as (code & E & R). injection R as R. apply outcome_ok in R.
    exists code. eexists. split; [exact E|]. split; [exact R|].
    destruct (trial_ran TNil (rebind_program ++ [plus_one]) 2 [VNil] _ _ _ eq_refl) as (code' & E' & R'). injection R' as R'. apply outcome_err in R'.
    exists code'. eexists. split; [exact E'|exact R'].
Qed.

(** ** two tuples of one name *)
Definition unit_ty (name : string) : tydef := TyDef (lit name) (TProduct []).
Definition new (name : string) (in_ty : ty) : argument := Arg in_ty (TDef (unit_ty name)) (AExpr [KOp (PInit (unit_ty name) 0) (fun _ => 0) []]).
Definition pair_of (a b : string) : argument :=
  Arg TNil (TDef (tuple_ty [TDef (unit_ty a); TDef (unit_ty b)])) (AExpr [KOp PTuple (fun _ => 0) [new a TNil; new b TNil]]).
Definition collision_program : list block :=
  [KOp PIf (fun _ => 0) [Arg TNil TBool (ALit (LBool true)); pair_of "A-B" "C"; pair_of "A" "B-C"];
   KOp PGet (fun _ => 0) [Arg (TDef (tuple_ty [TDef (unit_ty "A"); TDef (unit_ty "B-C")])) TStr (ALit (LStr (lit "t0")))]].
Lemma collision_breaks :
  exists code fs,
    compile (no_locals unit) TNil collision_program = Ok (code, TDef (unit_ty "A"), fs) /\
    Forall proper_blk collision_program /\ NoDup (slots_used fs) /\
    exists e, eval code VNil (env_new 0) tt = (tt, Ok (VOgma (unit_ty "A-B") 0 [], e)).
Proof.
  destruct (trial_ran TNil collision_program 0 [VNil] _ _ _ eq_refl) as (code & E & R). injection R as R. apply outcome_ok in R.
  exists code. eexists. split; [exact E|].
  split; [repeat (first [apply Forall_cons|apply Forall_nil|constructor])|]. split; [constructor|exact R].
Qed.

(** ** tables *)
Definition table_program : list block :=
  [KOp (PMap false (Some TNum)) (fun _ => 0)
     [Arg TNil TStr (ALit (LStr (lit "x")));
      Arg TNum TNum (AExpr [KOp (PNums Z.add) (fun _ => 0)
        [Arg TNum TNum (AExpr [KOp (PDot TNum) (fun _ => 0) [Arg TNum TTabRow (AVar (lit "row")); Arg TNil TStr (ALit (LStr (lit "y")))]])]])];
   KOp (PSort isort) (fun _ => 0) [Arg TNil TStr (ALit (LStr (lit "x")))];
   KOp PGrpBy (fun _ => 0) [Arg TTabRow TNum (AExpr [KOp (PGetRow TNum) (fun _ => 0) [Arg TNil TStr (ALit (LStr (lit "x")))]])]].
Definition table_input : table := [[o (lit "x"); o (lit "y")]; [ENum 3; ENum 1]; [ENum 1; ENum 1]; [ENum 2; ENum 2]].
Lemma tables_meet :
  exists code fs,
    compile (no_locals unit) TTab table_program = Ok (code, TTab, fs) /\
    Forall proper_blk table_program /\ Forall example_types (TTab :: types_used fs) /\
    NoDup (slots_used fs) /\ Forall (fun s => s < 1) (slots_used fs) /\ is_a example_types (VTab table_input) TTab /\
    (exists e, eval code (VTab table_input) (env_new 1) tt = (tt, Ok (VTab
      [[o (lit "key"); o (lit "value")];
       [ENum 2; EObj (VTab [[o (lit "x"); o (lit "y")]; [ENum 2; ENum 1]])];
       [ENum 4; EObj (VTab [[o (lit "x"); o (lit "y")]; [ENum 4; ENum 1]; [ENum 4; ENum 2]])]], e))) /\
    snd (eval code (VTab []) (env_new 1) tt) = Err 10 /\
    snd (eval code (VTab [[o (lit "x"); o (lit "y")]; [ENil; ENum 1]]) (env_new 1) tt) = Err 12.
Proof.
  destruct (trial_ran TTab table_program 1 [VTab table_input; VTab []; VTab [[o (lit "x"); o (lit "y")]; [ENil; ENum 1]]] _ _ _ eq_refl) as (code & E & R).
  exists code. eexists. split; [exact E|].
  split; [repeat (first [apply Forall_cons|apply Forall_nil|apply NoDup_nil|exact isort_contract|constructor; [intros []|]|constructor])|].
  split; [unfold example_types; repeat (apply Forall_cons; [cbn; tauto|]); apply Forall_nil|].
  split; [cbn; repeat (constructor; [cbn; intuition discriminate|]); constructor|].
  split; [cbn; repeat (apply Forall_cons; [lia|]); apply Forall_nil|].
  split.
  - constructor.
    + intros r s Hr Hs. cbn in Hr, Hs. intuition (subst; reflexivity).
    + intros r v Hr Hv. cbn in Hr. assert (K : exists s, v = VStr s).
      { destruct Hr as [<-|[<-|[<-|[<-|[]]]]]; cbn in Hv; destruct Hv as [Hv|[Hv|[]]]; try discriminate; injection Hv as <-; eauto. }
      destruct K as [s ->]. split; [unfold example_types; cbn; tauto|constructor].
  - injection R as R1 R2 R3. split; [apply outcome_ok; exact R1|]. split; apply outcome_err; assumption.
Qed.

(** ** ops that panic *)
Definition names (l : list string) : list argument := map (fun x => Arg TTab TStr (ALit (LStr (lit x)))) l.
Definition sort_by_program : list block :=
  [KOp (PSortBy isort) (fun _ => 0) [Arg TTabRow TNum (AExpr [KOp (PGetRow TNum) (fun _ => 0) [Arg TNil TStr (ALit (LStr (lit "x")))]])]].
Definition add_program : list block :=
  [KOp (PAddTab true false) (fun _ => 0) [Arg TTab TTab (AExpr [KOp PTable (fun _ => 0) (names ["a"; "b"]%string)])]].
Lemma outcome_panic p : outcome p = Panic -> snd p = Panic.
Proof. destruct p as [[] [[y e]| |]]; cbn; try discriminate. reflexivity. Qed.
Lemma panics :
  (exists code fs, compile (no_locals unit) TTab sort_by_program = Ok (code, TTab, fs) /\ Forall example_types (TTab :: types_used fs) /\
     NoDup (slots_used fs) /\ is_a example_types (VTab []) TTab /\ snd (eval code (VTab []) (env_new 0) tt) = Panic) /\
  (exists code fs, compile (no_locals unit) TTab add_program = Ok (code, TTab, fs) /\ Forall example_types (TTab :: types_used fs) /\
     NoDup (slots_used fs) /\ is_a example_types (VTab [[o (lit "a")]]) TTab /\ snd (eval code (VTab [[o (lit "a")]]) (env_new 0) tt) = Panic).
Proof.
  split.
  - destruct (trial_ran TTab sort_by_program 0 [VTab []] _ _ _ eq_refl) as (code & E & R).
    exists code. eexists. split; [exact E|]. split; [unfold example_types; repeat (apply Forall_cons; [cbn; tauto|]); apply Forall_nil|].
    split; [constructor|]. split; [constructor; intros ? ? []|]. injection R as R. apply outcome_panic. exact R.
  - destruct (trial_ran TTab add_program 0 [VTab [[o (lit "a")]]] _ _ _ eq_refl) as (code & E & R).
    exists code. eexists. split; [exact E|]. split; [unfold example_types; repeat (apply Forall_cons; [cbn; tauto|]); apply Forall_nil|].
    split; [constructor|]. split.
    + constructor.
      * intros r s [<-|[]] [<-|[]]. reflexivity.
      * intros r v [<-|[]] [Hv|[]]. injection Hv as <-. split; [unfold example_types; cbn; tauto|constructor].
    + injection R as R. apply outcome_panic. exact R.
Qed.
