(** C27: evaluating gives a value of the compiled type. *)
From Coq Require Import String List ZArith NArith Bool.
From Verif Require Import Model.Base Model.Value Model.Tuple Model.Exec Model.Intrinsics Model.Compare Model.Typed Spec.TableSpec
  Spec.CompareSpec Spec.TypingSpec Proofs.TypedMore Proofs.TypedExample Proofs.TypedOps Proofs.TypedCompile.
Import ListNotations.

(** A program that compiles, on an input of its input type: running it gives a value that is of the compiled type all the way
    down, or an error that is not one of a conversion.  It does not panic.  The types that compiling has used can be told
    apart by their names, each variable has a slot of its own, no [let] binds a name twice, sorting is by a sort, and [sort-by]
    and [+] on the rows of tables, which may panic, are not used ([proper_blk]). *)
Theorem C27_sound (W : Type) (U : ty -> Prop) (in_ty t : ty) (bs : list block) (code : list (step W)) (fs : list fact) (n : nat)
  (v : value) (w : W) :
  universe U -> compile (no_locals W) in_ty bs = Ok (code, t, fs) -> Forall proper_blk bs ->
  Forall U (in_ty :: types_used fs) -> NoDup (slots_used fs) -> Forall (fun s => s < n) (slots_used fs) -> is_a U v in_ty ->
  behaves (fun p => is_a U (fst p) t) (snd (eval code v (env_new n) w)).
Proof. exact (fun HU H P T N S V => proj2 (program_sound W U in_ty bs code t fs n v w HU H P T N S V)). Qed.
Print Assumptions C27_sound.

(** So the type of the value is the compiled type, *)
Theorem C27_type (W : Type) (U : ty -> Prop) (in_ty t : ty) (bs : list block) (code : list (step W)) (fs : list fact) (n : nat)
  (v : value) (w w' : W) (x : value) (e : env) :
  universe U -> compile (no_locals W) in_ty bs = Ok (code, t, fs) -> Forall proper_blk bs ->
  Forall U (in_ty :: types_used fs) -> NoDup (slots_used fs) -> Forall (fun s => s < n) (slots_used fs) -> is_a U v in_ty ->
  eval code v (env_new n) w = (w', Ok (x, e)) -> ty_of x = t.
Proof. exact (program_type W U in_ty bs code t fs n v w w' x e). Qed.
Print Assumptions C27_type.

(** and that of its input is the type of the program before it: a program in two parts runs the second on what the first
    gives, with the type the first has. *)
Theorem C27_parts (W : Type) (g : tscope W) (in_ty t : ty) (b : block) (bs : list block) (code : list (step W)) (fs : list fact) :
  compile g in_ty (b :: bs) = Ok (code, t, fs) <->
  exists s u g' fs1 rest fs2, compile_blk g in_ty b = Ok (s, u, g', fs1) /\ compile g' u bs = Ok (rest, t, fs2) /\
    code = s :: rest /\ fs = fs1 ++ fs2.
Proof. exact (compile_parts W g in_ty t b bs code fs). Qed.
Print Assumptions C27_parts.

(** An example: [let len $n | fold 0 { + $row.x } | scale $n | Tuple #i { = 12 }] on a table, where
    [def scale (y) { * $y }]. *)
Example C27_universe : universe example_types.
Proof. exact example_universe. Qed.
Example C27_example :
  exists code fs,
    compile (no_locals unit) TTab example_program = Ok (code, TDef (tuple_ty [TNum; TBool]), fs) /\
    Forall proper_blk example_program /\ Forall example_types (TTab :: types_used fs) /\
    NoDup (slots_used fs) /\ Forall (fun s => s < 3) (slots_used fs) /\ is_a example_types (VTab example_table) TTab /\
    exists e, eval code (VTab example_table) (env_new 3) tt = (tt, Ok (VOgma (tuple_ty [TNum; TBool]) 0 [VNum 12; VBool true], e)).
Proof. exact example_meets. Qed.

(** On rows without the column, or with a string in it, the same program fails; not by a conversion. *)
Example C27_example_error :
  exists code t fs, compile (no_locals unit) TTab example_program = Ok (code, t, fs) /\
    snd (eval code (VTab [[o (lit "y")]; [ENum 1]]) (env_new 3) tt) = Err 11 /\
    snd (eval code (VTab [[o (lit "x")]; [o (lit "one")]]) (env_new 3) tt) = Err 12.
Proof. exact example_fails. Qed.

(** Another: [map x --Num { + $row.y } | sort x | grp-by { get x --Num }].  It fails on a table without columns, and on an entry
    that is not a number. *)
Example C27_example_tables :
  exists code fs,
    compile (no_locals unit) TTab table_program = Ok (code, TTab, fs) /\
    Forall proper_blk table_program /\ Forall example_types (TTab :: types_used fs) /\
    NoDup (slots_used fs) /\ Forall (fun s => s < 1) (slots_used fs) /\ is_a example_types (VTab table_input) TTab /\
    (exists e, eval code (VTab table_input) (env_new 1) tt = (tt, Ok (VTab
      [[o (lit "key"); o (lit "value")];
       [ENum 2; EObj (VTab [[o (lit "x"); o (lit "y")]; [ENum 2; ENum 1]])];
       [ENum 4; EObj (VTab [[o (lit "x"); o (lit "y")]; [ENum 4; ENum 1]; [ENum 4; ENum 2]])]], e))) /\
    snd (eval code (VTab []) (env_new 1) tt) = Err 10 /\
    snd (eval code (VTab [[o (lit "x"); o (lit "y")]; [ENil; ENum 1]]) (env_new 1) tt) = Err 12.
Proof. exact tables_meet. Qed.

(** The keys of [grp-by] are of one type, and comparing two of them neither fails nor panics: it gives their order. *)
Theorem C27_keys (U : ty -> Prop) (t : ty) (a b : value) (s : step unit) : universe U -> U t -> cmp_step t (HLit VNil) = Ok s ->
  is_a U a t -> is_a U b t -> cmp_values t a b = Ok (order a b).
Proof. exact (fun HU Ut E => cmp_values_order U t a b (cmp_comparable unit U HU t _ s Ut E)). Qed.
Print Assumptions C27_keys.
Example C27_keys_example : cmp_step TNum (HLit VNil : hold unit) = Ok (cmp_num (HLit VNil)) /\ cmp_values TNum (VNum 3) (VNum 2) = Ok Gt.
Proof. split; reflexivity. Qed.

(** Programs that compile and panic on inputs of their type: [sort-by { get x --Num }] on a table without rows (C07), and
    [+ { Table a b }] on [Table a] (C13). *)
Theorem C27_panic_refuted :
  (exists code fs, compile (no_locals unit) TTab sort_by_program = Ok (code, TTab, fs) /\ Forall example_types (TTab :: types_used fs) /\
     NoDup (slots_used fs) /\ is_a example_types (VTab []) TTab /\ snd (eval code (VTab []) (env_new 0) tt) = Panic) /\
  (exists code fs, compile (no_locals unit) TTab add_program = Ok (code, TTab, fs) /\ Forall example_types (TTab :: types_used fs) /\
     NoDup (slots_used fs) /\ is_a example_types (VTab [[o (lit "a")]]) TTab /\ snd (eval code (VTab [[o (lit "a")]]) (env_new 0) tt) = Panic).
Proof. exact panics. Qed.
Print Assumptions C27_panic_refuted.

(** A name bound twice by one [let] keeps the type of the first and takes the value of the second:
    [let 1 $a 'x' $a | \ $a] is compiled as a number and gives a string, and [... | \ $a | + 1] fails in a conversion. *)
Theorem C27_rebind_refuted :
  ~ (forall (U : ty -> Prop) (in_ty t : ty) (bs : list block) (code : list (step unit)) (fs : list fact) (n : nat) (v : value),
       universe U -> compile (no_locals unit) in_ty bs = Ok (code, t, fs) ->
       Forall U (in_ty :: types_used fs) -> NoDup (slots_used fs) -> Forall (fun s => s < n) (slots_used fs) -> is_a U v in_ty ->
       behaves (fun p => is_a U (fst p) t) (snd (eval code v (env_new n) tt))) /\
  exists code fs, compile (no_locals unit) TNil rebind_program = Ok (code, TNum, fs) /\
    (exists e, eval code VNil (env_new 2) tt = (tt, Ok (VStr (lit "x"), e))) /\
    exists code' fs', compile (no_locals unit) TNil (rebind_program ++ [plus_one]) = Ok (code', TNum, fs') /\
      snd (eval code' VNil (env_new 2) tt) = Err 1.
Proof. exact rebind_breaks. Qed.
Print Assumptions C27_rebind_refuted.

(** Tuples of different types may have one name (C36): [if] takes the tuples of an [A-B] and a [C] and of an [A] and a [B-C]
    to be of the same type, and the first field of the one is compiled as that of the other. *)
Theorem C27_collision_refuted :
  exists code fs,
    compile (no_locals unit) TNil collision_program = Ok (code, TDef (unit_ty "A"), fs) /\
    Forall proper_blk collision_program /\ NoDup (slots_used fs) /\
    exists e, eval code VNil (env_new 0) tt = (tt, Ok (VOgma (unit_ty "A-B") 0 [], e)).
Proof. exact collision_breaks. Qed.
Print Assumptions C27_collision_refuted.
