(** Vocabulary for the statements about individual table commands. *)
From Coq Require Import String List ZArith NArith Bool Sorted.
From Verif Require Import Model.Base Model.Value Model.TableCrate Model.RowPar Model.TableOps Model.Get
  Spec.SortSpec Spec.TableSpec Spec.ColSpec Spec.GroupSpec.
Import ListNotations.
Set Implicit Arguments.

Definition selected (p : nat -> bool) (t : table) : table :=
  map snd (filter (fun ir => p (fst ir)) (indexed t)).

Definition true_val (r : res value) : bool :=
  match r with Ok (VBool true) => true | _ => false end.

Definition is_bool (r : res value) : Prop := exists b, r = Ok (VBool b).

(** A predicate result is acceptable if it is a boolean. *)
Definition pred_error (r : res value) (e : nat) : Prop :=
  r = Err e \/ (e = 1 /\ exists v, r = Ok v /\ ty_of v <> TBool).

(** The elements of [l] at the positions marked true. *)
Fixpoint marked {A} (keep : list bool) (l : list A) : list A :=
  match keep, l with
  | true :: keep, x :: l => x :: marked keep l
  | false :: keep, _ :: l => marked keep l
  | _, _ => []
  end.

(** The text of header cell [j], empty if it is not a string. *)
Definition header_text (t : table) (j : nat) : str :=
  match cell t 0 j with Some (EObj (VStr s)) => s | _ => [] end.

(** The comparison of entries of equal kind, by what they denote. *)
Definition sort_key (e : ent) : nat * (bool * (Z * str)) :=
  match e with
  | ENil => (4, (false, (0%Z, [])))
  | ENum n => (1, (false, (n, [])))
  | EObj VNil => (4, (false, (0%Z, [])))
  | EObj (VBool b) => (0, (b, (0%Z, [])))
  | EObj (VNum n) => (1, (false, (n, [])))
  | EObj (VStr s) => (2, (false, (0%Z, s)))
  | EObj (VTab _) => (5, (false, (0%Z, [])))
  | EObj (VTabRow _ _ _) => (6, (false, (0%Z, [])))
  | EObj (VOgma d _ _) => (3, (false, (0%Z, td_name d)))
  end.

Definition pair_cmp {A B} (c : A -> A -> comparison) (d : B -> B -> comparison) (x y : A * B) : comparison :=
  match c (fst x) (fst y) with Eq => d (snd x) (snd y) | r => r end.

(** A text comes before another if it is a proper prefix or has the smaller character at the first difference. *)
Definition text_before (a b : str) : Prop :=
  exists p q, (a = p /\ exists c, b = p ++ c :: q) \/ (exists c d r, a = p ++ c :: q /\ b = p ++ d :: r /\ (c < d)%N).
Definition key_cmp := pair_cmp Nat.compare (pair_cmp Bool.compare (pair_cmp Z.compare str_cmp)).

(** [c] is a total preorder of the keys that agrees with every comparison that succeeds. *)
Definition refines_order (cmp : value -> value -> res comparison) (keys : list value)
    (c : value -> value -> comparison) : Prop :=
  total_preorder_on (fun k => In k keys) c /\
  forall a b x, In a keys -> In b keys -> cmp a b = Ok x -> c a b = x.

Definition by_key (c : value -> value -> comparison) (a b : row * value) : comparison := c (snd a) (snd b).

Definition group_key (fmt : ent -> str) (cols : list nat) (r : row) : str :=
  join_hyphen (drop_empty (map (fun c => fmt (cell_at c r)) cols)).

(** [c] is the order given by the comparison, which never fails on the keys. *)
Definition decides_order (cmp : value -> value -> res comparison) (keys : list value)
    (c : value -> value -> comparison) : Prop :=
  total_preorder_on (fun k => In k keys) c /\
  forall a b, In a keys -> In b keys -> cmp a b = Ok (c a b).

(** A column to append: how it is evaluated, its name, and the function it computes. *)
Notation column_job C := (((C -> nat -> res value * C) * list N) * (nat -> res value))%type.

Definition nils_before (j : nat) (h : row) : nat :=
  length (filter (fun e => match e with ENil => true | _ => false end) (firstn j h)).

(** The result of the transformation for row [i]. *)
Definition map_result (G : nat -> value -> res value) (force : bool) (in_ty : ty) (j : nat) (t : table) (i : nat)
  : res value :=
  if force then G i VNil
  else match cell t i j with
       | None => Panic
       | Some e => if ty_eqb (ty_of (val_of_ent e)) in_ty then G i (val_of_ent e) else Err 12
       end.

(** [s] is what the name [n] selects. *)
Definition selects (add : bool) (t : table) (n : str) (s : option nat) : Prop :=
  match s with
  | Some c => column_named t n c
  | None => add = true /\ no_column_named t n
  end.

(** [rest] are the columns below [w] that were not selected, in ascending order. *)
Definition unselected (w : nat) (sel : list (option nat)) (rest : list nat) : Prop :=
  StronglySorted lt rest /\ forall c, In c rest <-> c < w /\ ~ In (Some c) sel.

Definition picked_cell (i : nat) (r : row) (n : str) (s : option nat) : ent :=
  match s with
  | Some c => cell_at c r
  | None => if Nat.eqb i 0 then EObj (VStr n) else ENil
  end.

Definition last_for (j : nat) (bs : list (N * value)) : option value :=
  option_map snd (find (fun b => N.eqb (fst b) (N.of_nat j)) (rev bs)).

(** A column reference denotes index [i] of the table as given. *)
Definition denotes (t : table) (r : col_ref) (i : N) : Prop :=
  match r with
  | RefName v => exists n c, v = Ok (VStr n) /\ column_named t n c /\ i = N.of_nat c
  | RefIdx v => exists x, v = Ok x /\ cnv_num_to_usize x = Ok i
  end.

(** Why a reference does not resolve. *)
Definition bad_ref (t : table) (r : col_ref) : Prop := forall i, ~ denotes t r i.

(** What can stop the guarded fold after [k] good rounds. *)
Definition stops_false {S} (pred : S -> value -> nat -> res value * S) (s : S) (x : value) (i : nat) (s' : S) :=
  pred s x i = (Ok (VBool false), s').

Definition stops_err {S} (pred acc : S -> value -> nat -> res value * S) (s : S) (x : value) (i : nat)
    (e : nat) (s' : S) :=
  pred s x i = (Err e, s') \/
  (exists v, pred s x i = (Ok v, s') /\ ty_of v <> TBool /\ e = 1) \/
  (exists s0, pred s x i = (Ok (VBool true), s0) /\ acc s0 x i = (Err e, s')).

Definition stops_panic {S} (pred acc : S -> value -> nat -> res value * S) (s : S) (x : value) (i : nat) (s' : S) :=
  pred s x i = (Panic, s') \/
  (exists s0, pred s x i = (Ok (VBool true), s0) /\ acc s0 x i = (Panic, s')).

(** Two rows agree on some columns. *)
Definition agree_on (cols : list nat) (a b : row) : Prop :=
  forall c, In c cols -> ent_eqb (cell_at c a) (cell_at c b) = true.

Definition same_type (v : value) (t : ty) : bool := ty_eqb (ty_of v) t.

(** What reading cell value [x] with request [g] means. *)
Definition got (g : get_type) (x : value) (out : res value) : Prop :=
  match g with
  | GDefault t d => if same_type x t then out = Ok x else out = d
  | GFlag t => if same_type x t then out = Ok x else exists e, out = Err e
  end.

Definition max_cols (ts : list table) : nat := fold_right (fun t w => Nat.max (cols_len t) w) 0 ts.

(** The number [n], as a value usable as a count. *)
Definition count_is (v : value) (n : N) : Prop :=
  v = VNum (Z.of_N n * num_unit) /\ (n <= usize_max)%N.

(** What a column filter makes of an entry: other types are dropped without asking the predicate. *)
Definition judge (exp : ty) (pred : value -> res value) (e : ent) : res value :=
  if same_type (val_of_ent e) exp then pred (val_of_ent e) else Ok (VBool false).

(** Two rows compared on a column. *)
Definition by_column (c : nat) (a b : row) : comparison :=
  key_cmp (sort_key (cell_at c a)) (sort_key (cell_at c b)).
