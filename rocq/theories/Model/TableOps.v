(** The table and string morphisms: ogma/src/lang/impls/intrinsics/morphism.rs, and the table part
    of arithmetic.rs and pipeline.rs.  Arguments of an op that are expressions are given by their
    results, or by evaluation functions where they are evaluated per row. *)
From Coq Require Import String List ZArith NArith Bool Lia.
From Coq Require DecimalString.
From Verif Require Import Model.Base Model.Value Model.TableCrate Model.RowPar.
Import ListNotations.
Set Implicit Arguments.

(** Iterator adaptors [take], [skip] with a [usize] count. *)
Fixpoint takeN {A} (n : N) (l : list A) : list A :=
  match l with
  | [] => []
  | x :: l => if (n =? 0)%N then [] else x :: takeN (N.pred n) l
  end.
Fixpoint skipN {A} (n : N) (l : list A) : list A :=
  match l with
  | [] => []
  | x :: l' => if (n =? 0)%N then l else skipN (N.pred n) l'
  end.

(** [a + 1] on [usize]: [checked] builds panic on overflow, release builds wrap. *)
Definition usize_succ (checked : bool) (n : N) : res N :=
  if (n <? usize_max)%N then Ok (n + 1)%N else if checked then Panic else Ok 0%N.

(** Decimal text of a natural number ([format!("{}", n)]). *)
Definition dec (n : nat) : str := lit (DecimalString.NilEmpty.string_of_uint (Nat.to_uint n)).

(** ** take, skip *)

(** morphism.rs:1557-1585 [take_table_intrinsic]; [owned]: [Arc::get_mut] succeeded. *)
Definition take_table (owned : bool) (count : value) (t : table) : res table :=
  let? n := cnv_num_to_usize count in
  if owned
  then Ok (retain_rows (fun i => Nat.eqb i 0 || (N.of_nat i <=? n)%N) t)
  else Ok (add_rows [] (firstn 1 t ++ takeN n (skipn 1 t))).

(** morphism.rs:1298-1326 [skip_table_intrinsic] *)
Definition skip_table (checked owned : bool) (count : value) (t : table) : res table :=
  let? n := cnv_num_to_usize count in
  if owned
  then Ok (retain_rows (fun i => Nat.eqb i 0 || (n <? N.of_nat i)%N) t)
  else let? n1 := usize_succ checked n in
       Ok (add_rows [] (firstn 1 t ++ skipN n1 t)).

(** morphism.rs:1526-1543, 1267-1284: [take_str_intrinsic], [skip_str_intrinsic] *)
Definition take_str (count : value) (s : str) : res str :=
  let? n := cnv_num_to_usize count in Ok (takeN n s).
Definition skip_str (count : value) (s : str) : res str :=
  let? n := cnv_num_to_usize count in Ok (skipN n s).

(** ** rev, dedup *)

(** morphism.rs:1209-1217, 1230-1246 *)
Definition rev_str (s : str) : str := rev s.
Definition rev_table (cols : bool) (t : table) : table :=
  if cols then reverse_cols t else reverse_rows t.

(** morphism.rs:195-217 [dedup_str_intrinsic]: the closure keeps the last character it let through. *)
Fixpoint dedup_chars (x : option N) (s : str) : str :=
  match s with
  | [] => []
  | c :: s =>
      match x with
      | Some y => if N.eqb c y then dedup_chars x s else c :: dedup_chars (Some c) s
      | None => c :: dedup_chars (Some c) s
      end
  end.
Definition dedup_str (s : str) : str := dedup_chars None s.

(** [Vec::dedup_by]: compare each element with the last one retained. *)
Fixpoint dedup_by_from {A} (same : A -> A -> res bool) (last : A) (l : list A) : res (list A) :=
  match l with
  | [] => Ok []
  | a :: l =>
      let? b := same a last in
      if (b : bool) then dedup_by_from same last l
      else let? r := dedup_by_from same a l in Ok (a :: r)
  end.
Definition dedup_by {A} (same : A -> A -> res bool) (l : list A) : res (list A) :=
  match l with
  | [] => Ok []
  | a :: l => let? r := dedup_by_from same a l in Ok (a :: r)
  end.

(** [cols.iter().all(|&c| a[c] == b[c])], indexing panics out of bounds. *)
Fixpoint same_on (cols : list nat) (a b : row) : res bool :=
  match cols with
  | [] => Ok true
  | c :: cols =>
      match nth_error a c, nth_error b c with
      | Some x, Some y => if ent_eqb x y then same_on cols a b else Ok false
      | _, _ => Panic
      end
  end.

(** intrinsics/mod.rs:268-281 [ColNameArgs::resolve_indices] *)
Definition resolve_indices (names : list str) (t : table) : res (list nat) :=
  rmapM (col_idx t) names.

(** morphism.rs:241-265 [dedup_table_intrinsic]; the header takes part as the first row. *)
Definition dedup_table (names : option (list str)) (t : table) : res table :=
  let? cols := match names with
               | Some ns => resolve_indices ns t
               | None => Ok (seq 0 (cols_len t))
               end in
  let? r := dedup_by (same_on cols) t in
  Ok (table_from r).

(** ** filter *)

(** morphism.rs:470-488 [FilterTable::retain_keep_rows] *)
Definition retain_keep_rows (owned : bool) (t : table) (keep : list bool) : res table :=
  if forallb (fun b => b) keep then Ok t
  else if length keep <? rows_len t then Panic
  else if owned then Ok (retain_rows (fun i => nth i keep false) t)
  else Ok (table_from (retain_from (fun i => nth i keep false) 0 t)).

(** morphism.rs:428-440 [gen_keep_arr_with_table_row_input] *)
Definition filter_keep {C} (ev : C -> nat -> res value * C) (init : C) (sched : list (nat * nat))
    (t : table) : res (list bool) :=
  par_over_tablerows (assign_cb ev (fun _ => as_bool)) init sched (repeat true (rows_len t)).

(** morphism.rs:373-392: [filter <predicate>] *)
Definition filter_table {C} (ev : C -> nat -> res value * C) (init : C) (sched : list (nat * nat))
    (owned : bool) (t : table) : res table :=
  let? keep := filter_keep ev init sched t in
  retain_keep_rows owned t keep.

(** morphism.rs:442-468 [gen_keep_arr_with_known_col]: the row callback looks the entry up through
    the cache, a type mismatch answers [false]. The predicate is applied to the entry. *)
Definition known_col_cb (name : str) (exp : ty) (pred : value -> res value) (t : table)
    (k : bool) (c : cache) (i : nat) : bool * cache * res unit :=
  let (e, c') := row_entry t i c name in
  match e with
  | Err x => (k, c', Err x)
  | Panic => (k, c', Panic)
  | Ok e =>
      match cnv_value e exp with
      | Ok v => match rbind (pred v) as_bool with
                | Ok b => (b, c', Ok tt)
                | Err x => (k, c', Err x)
                | Panic => (k, c', Panic)
                end
      | _ => (false, c', Ok tt)
      end
  end.
(** morphism.rs:393-419: [filter <col> <predicate>] *)
Definition filter_table_col (name : str) (exp : ty) (pred : value -> res value)
    (sched : list (nat * nat)) (owned : bool) (t : table) : res table :=
  let? keep := par_over_tablerows (known_col_cb name exp pred t) [] sched
                 (repeat true (rows_len t)) in
  retain_keep_rows owned t keep.

(** morphism.rs:490-520 [filter_table_columns]: from the last column to the first. *)
Definition hdr_text (t : table) (j : nat) : str :=
  match get_cell t 0 j with
  | Some (EObj (VStr h)) => h
  | _ => []
  end.
Fixpoint filter_cols_loop (pred : str -> res value) (n : nat) (t : table) : res table :=
  match n with
  | 0 => Ok t
  | S j =>
      let? b := rbind (pred (hdr_text t j)) as_bool in
      filter_cols_loop pred j (if (b : bool) then t else remove_col j t)
  end.
Definition filter_cols (pred : str -> res value) (t : table) : res table :=
  filter_cols_loop pred (cols_len t) t.

(** morphism.rs:280-311 [filter_str_intrinsic]: a failing predicate keeps the character and
    records the error; the last error is returned. *)
Fixpoint filter_str_loop (pred : N -> res value) (e : res unit) (s : str) : str * res unit :=
  match s with
  | [] => ([], e)
  | c :: s =>
      match rbind (pred c) as_bool with
      | Ok b => let (r, e) := filter_str_loop pred e s in ((if b then c :: r else r), e)
      | Err x => let (r, e) := filter_str_loop pred (Err x) s in (c :: r, e)
      | Panic => ([], Panic)
      end
  end.
Definition filter_str (pred : N -> res value) (s : str) : res str :=
  let (r, e) := filter_str_loop pred (Ok tt) s in
  let? _ := e in Ok r.

(** ** append, append-row, map *)

(** morphism.rs:60-85: the names of the appended columns: flags in order, then [_append1], ... *)
Fixpoint append_names (n : nat) (flags : list str) (auto : nat) : list str :=
  match n with
  | 0 => []
  | S n => match flags with
           | f :: flags => f :: append_names n flags auto
           | [] => (lit "_append" ++ dec auto) :: append_names n [] (S auto)
           end
  end.

(** Gather the per-column results: the error of the column that finished last among the failing
    ones is reported ([order]: the order in which columns finish). *)
Definition gather {A} (order : list nat) (rs : list (res A)) : res (list A) :=
  if existsb (fun r => match r with Panic => true | _ => false end) rs then Panic
  else
    match fold_left (fun e k => match nth_error rs k with Some (Err x) => Some x | _ => e end)
                    order None with
    | Some e => Err e
    | None => rmapM (fun r => r) rs
    end.

(** morphism.rs:87-133 [append_table].  Both the owned and the shared branch add the columns to the
    same rows. [scheds]: one schedule per appended column. *)
Definition append_table {C} (cols : list ((C -> nat -> res value * C) * str)) (init : C)
    (scheds : list (list (nat * nat))) (order : list nat) (t : table) : res table :=
  let seed := fun name : str => match repeat ENil (rows_len t) with
                                | [] => []
                                | _ :: r => o name :: r
                                end in
  let results := map (fun x : ((C -> nat -> res value * C) * str) * list (nat * nat) =>
                        let '((ev, name), s) := x in
                        par_over_tablerows (assign_cb ev (fun _ v => Ok (ent_of_val v))) init s
                          (seed name))
                     (combine cols scheds) in
  let? cs := gather order results in
  Ok (add_cols t cs).

(** morphism.rs:160-181 [append_row_intrinsic] *)
Fixpoint name_nils (i : nat) (h : row) : row :=
  match h with
  | [] => []
  | ENil :: h => o (lit "_append" ++ dec i) :: name_nils (S i) h
  | e :: h => e :: name_nils i h
  end.
Definition append_row (vals : list (res value)) (t : table) : res table :=
  let? vs := rmapM (fun r => r) vals in
  match add_row t (map ent_of_val vs) with
  | [] => Ok []
  | h :: d => Ok (name_nils 1 h :: d)
  end.

(** morphism.rs:911-951 [MapTable::doit]. [tf]: the transformation with the row variable set to the
    row, given the worker context (which it may change), the row, and the input value. *)
Definition map_cb {C} (tf : C -> nat -> value -> res value * C) (force : bool) (in_ty : ty)
    (colidx : nat) (t : table) (v : value) (c : C) (i : nat) : value * C * res unit :=
  let input := if force then Ok VNil
               else let? e := entry_at t i colidx in cnv_value e in_ty in
  match input with
  | Ok x =>
      let (r, c') := tf c i x in
      match r with Ok v' => (v', c', Ok tt) | Err e => (v, c', Err e) | Panic => (v, c', Panic) end
  | Err e => (v, c, Err e)
  | Panic => (v, c, Panic)
  end.
Fixpoint zip_col (j : nat) (rows : table) (vs : list value) : table :=
  match rows, vs with
  | r :: rows, v :: vs => set_nth j (ent_of_val v) r :: zip_col j rows vs
  | rows, [] => rows
  | [], _ => []
  end.
Definition map_table {C} (tf : C -> nat -> value -> res value * C) (init : C)
    (sched : list (nat * nat)) (force : bool) (in_ty : ty) (name : res value) (t : table)
    : res table :=
  let? name := rbind name as_str in
  let? j := col_idx t name in
  let? vs := par_over_tablerows (map_cb tf force in_ty j t) init sched
               (repeat VNil (rows_len t)) in
  match t, vs with
  | h :: d, _ :: vs => Ok (h :: zip_col j d vs)
  | _, _ => Ok t
  end.

(** ** fold, fold-while *)

(** morphism.rs:562-579, 626-646.  [S] is the state the evaluation of an argument may depend on
    and change (column cache, effects). *)
Fixpoint fold_loop {S} (acc : S -> value -> nat -> res value * S) (idxs : list nat) (x : value)
    (s : S) : res value * S :=
  match idxs with
  | [] => (Ok x, s)
  | i :: idxs =>
      match acc s x i with
      | (Ok x, s) => fold_loop acc idxs x s
      | (Err e, s) => (Err e, s)
      | (Panic, s) => (Panic, s)
      end
  end.
Definition fold_table {S} (seed : S -> res value * S) (acc : S -> value -> nat -> res value * S)
    (t : table) (s : S) : res value * S :=
  match seed s with
  | (Ok x, s) => fold_loop acc (seq 1 (rows_len t - 1)) x s
  | (Err e, s) => (Err e, s)
  | (Panic, s) => (Panic, s)
  end.
Fixpoint fold_while_loop {S} (pred acc : S -> value -> nat -> res value * S) (idxs : list nat)
    (x : value) (s : S) : res value * S :=
  match idxs with
  | [] => (Ok x, s)
  | i :: idxs =>
      let (p, s) := pred s x i in
      match rbind p as_bool with
      | Ok true =>
          match acc s x i with
          | (Ok x, s) => fold_while_loop pred acc idxs x s
          | (Err e, s) => (Err e, s)
          | (Panic, s) => (Panic, s)
          end
      | Ok false => (Ok x, s)
      | Err e => (Err e, s)
      | Panic => (Panic, s)
      end
  end.
Definition fold_while_table {S} (seed : S -> res value * S)
    (pred acc : S -> value -> nat -> res value * S) (t : table) (s : S) : res value * S :=
  match seed s with
  | (Ok x, s) => fold_while_loop pred acc (seq 1 (rows_len t - 1)) x s
  | (Err e, s) => (Err e, s)
  | (Panic, s) => (Panic, s)
  end.

(** ** grp, grp-by *)

(** [BTreeMap::entry(key).or_insert_with(new)] followed by an update of the slot: an association
    list kept in key order. *)
Fixpoint btree_upd {K V} (cmp : K -> K -> comparison) (k : K) (new : V) (upd : V -> V)
    (m : list (K * V)) : list (K * V) :=
  match m with
  | [] => [(k, upd new)]
  | (k', v) :: m' =>
      match cmp k k' with
      | Lt => (k, upd new) :: m
      | Eq => (k', upd v) :: m'
      | Gt => (k', v) :: btree_upd cmp k new upd m'
      end
  end.

(** morphism.rs:712-723 [build_table_from_map] *)
Definition build_table_from_map {K} (m : list (K * table)) (key_f : K -> value) : table :=
  add_rows (add_row [] [o (lit "key"); o (lit "value")])
    (map (fun kv => [ent_of_val (key_f (fst kv)); ent_of_val (VTab (snd kv))]) m).

(** morphism.rs:690-700: the key string; a hyphen is put before a part only if the key so far is
    not empty. [fmt]: [print::fmt_cell], kept abstract. *)
Definition grp_key (fmt : ent -> str) (parts : list ent) : str :=
  fold_left (fun k e => (match k with [] => k | _ => k ++ lit "-" end) ++ fmt e) parts [].

Definition key_parts (cols : list nat) (r : row) : res (list ent) :=
  rmapM (fun c => match nth_error r c with Some e => Ok e | None => Panic end) cols.

(** morphism.rs:671-710 [grp_table_intrinsic] *)
Fixpoint grp_loop (fmt : ent -> str) (cols : list nat) (hdr : row) (rows : table)
    (m : list (str * table)) : res (list (str * table)) :=
  match rows with
  | [] => Ok m
  | r :: rows =>
      let? parts := key_parts cols r in
      grp_loop fmt cols hdr rows
        (btree_upd str_cmp (grp_key fmt parts) (add_row [] hdr) (fun t => add_row t r) m)
  end.
Definition grp_table (fmt : ent -> str) (names : list str) (t : table) : res table :=
  match t with
  | [] => Err 20
  | hdr :: d =>
      let? cols := resolve_indices names t in
      let? m := grp_loop fmt cols hdr d [] in
      Ok (build_table_from_map m VStr)
  end.

(** intrinsics/mod.rs:316-323 [resolve_trow_expr_par] *)
Definition resolve_trow_expr_par {C} (ev : C -> nat -> res value * C) (init : C)
    (sched : list (nat * nat)) (t : table) : res (list value) :=
  par_over_tablerows (assign_cb ev (fun _ v => Ok v)) init sched (repeat VNil (rows_len t)).

(** morphism.rs:786-809: the [Ord] instance of grouping keys: an error of the comparison counts as
    equal (and is not reported). *)
Definition cmp_or_eq {A} (cmp : A -> A -> res comparison) (a b : A) : comparison :=
  match cmp a b with Ok c => c | _ => Eq end.

(** morphism.rs:811-835 [grp_table] (of grp-by) and 751-770 [grpby_table_intrinsic] *)
Fixpoint grpby_loop (cmp : value -> value -> res comparison) (hdr : row) (rows : table)
    (keys : list value) (m : list (value * table)) : list (value * table) :=
  match rows, keys with
  | r :: rows, k :: keys =>
      grpby_loop cmp hdr rows keys
        (btree_upd (cmp_or_eq cmp) k (add_row [] hdr) (fun t => add_row t r) m)
  | _, _ => m
  end.
Definition grpby_table {C} (ev : C -> nat -> res value * C) (init : C) (sched : list (nat * nat))
    (cmp : value -> value -> res comparison) (t : table) : res table :=
  let? keys := resolve_trow_expr_par ev init sched t in
  match t, keys with
  | hdr :: d, _ :: keys => Ok (build_table_from_map (grpby_loop cmp hdr d keys []) (fun k => k))
  | _, _ => Ok (build_table_from_map [] (fun k : value => k))
  end.

(** ** pick, ren, ren-with *)

(** morphism.rs:973-1012 [pick_table_intrinsic] *)
Definition pick_indices (add : bool) (names : list str) (t : table)
    : res (list (option nat * str)) :=
  rmapM (fun n => match col_idx t n with
                  | Ok i => Ok (Some i, n)
                  | Err e => if add then Ok (None, n) else Err e
                  | Panic => Panic
                  end) names.
Definition pick_trail (t : table) (idxs : list (option nat * str)) : list (option nat * str) :=
  map (fun i => (Some i, []))
    (filter (fun i => negb (existsb (fun x => match fst x with
                                              | Some j => Nat.eqb i j
                                              | None => false end) idxs))
            (seq 0 (cols_len t))).
Definition pick_row (idxs : list (option nat * str)) (i : nat) (r : row) : res row :=
  rmapM (fun x => match x with
                  | (Some j, _) => match nth_error r j with Some e => Ok e | None => Panic end
                  | (None, n) => Ok (if Nat.eqb i 0 then o n else ENil)
                  end) idxs.
Fixpoint pick_rows (idxs : list (option nat * str)) (i : nat) (t : table) : res table :=
  match t with
  | [] => Ok []
  | r :: t => let? r := pick_row idxs i r in
              let? rs := pick_rows idxs (S i) t in Ok (r :: rs)
  end.
Definition pick_table (add trail : bool) (names : list str) (t : table) : res table :=
  let? idxs := pick_indices add names t in
  let idxs := if trail then idxs ++ pick_trail t idxs else idxs in
  let? rows := pick_rows idxs 0 t in
  Ok (table_from rows).

(** morphism.rs:1040-1110 [ren_table_intrinsic] *)
Inductive col_ref := RefName (v : res value) | RefIdx (v : res value).
Definition resolve_ref (t : table) (r : col_ref) : res N :=
  match r with
  | RefIdx v => rbind v cnv_num_to_usize
  | RefName v => let? n := rbind v as_str in
                 let? i := col_idx t n in Ok (N.of_nat i)
  end.
Fixpoint ren_loop (idxs : list N) (names : list (res value)) (t : table) : res table :=
  match idxs, names with
  | i :: idxs, n :: names =>
      if (i <? N.of_nat (cols_len t))%N
      then let? v := n in ren_loop idxs names (set_cell 0 (N.to_nat i) (ent_of_val v) t)
      else Err 21
  | _, _ => Ok t
  end.
Definition ren_table (bindings : list (col_ref * res value)) (t : table) : res table :=
  let? idxs := rmapM (resolve_ref t) (map fst bindings) in
  ren_loop idxs (map snd bindings) t.

(** morphism.rs:1142-1195 [ren_with_table_intrinsic] *)
Definition ren_with_table (rowidx : value) (inty : ty) (expr : value -> res value) (t : table)
    : res table :=
  let? i := cnv_num_to_usize rowidx in
  match t with
  | [] => Err 22
  | h :: d =>
      if (i <? N.of_nat (rows_len t))%N
      then match nth_error t (N.to_nat i) with
           | None => Panic
           | Some r =>
               let? hs := rmapM (fun e => let? v := cnv_value e inty in
                                          rbind (expr v) as_str) r in
               Ok ((map (fun eh => EObj (VStr (snd eh))) (combine h hs) ++ skipn (length hs) h) :: d)
           end
      else Err 23
  end.

(** ** sort, sort-by *)

(** morphism.rs:1400-1410 [entry_discriminant] *)
Definition entry_discriminant (e : ent) : nat :=
  match e with
  | EObj (VBool _) => 0
  | ENum _ | EObj (VNum _) => 1
  | EObj (VStr _) => 2
  | EObj (VOgma _ _ _) => 3
  | ENil | EObj VNil => 4
  | EObj (VTab _) => 5
  | EObj (VTabRow _ _ _) => 6
  end.

Definition bool_cmp (a b : bool) : comparison :=
  match a, b with
  | false, true => Lt
  | true, false => Gt
  | _, _ => Eq
  end.

(** morphism.rs:1370-1396 [cmp_table_entries] *)
Definition cmp_table_entries (a b : ent) : comparison :=
  let ai := entry_discriminant a in
  let bi := entry_discriminant b in
  if negb (Nat.eqb ai bi) then Nat.compare ai bi
  else match a, b with
       | ENil, _ | EObj VNil, _ => Eq
       | ENum x, ENum y | EObj (VNum x), ENum y
       | ENum x, EObj (VNum y) | EObj (VNum x), EObj (VNum y) => Z.compare x y
       | EObj (VBool x), EObj (VBool y) => bool_cmp x y
       | EObj (VStr x), EObj (VStr y) => str_cmp x y
       | EObj (VTab _), _ => Eq
       | EObj (VTabRow _ _ _), _ => Eq
       | EObj (VOgma x _ _), EObj (VOgma y _ _) => str_cmp (td_name x) (td_name y)
       | _, _ => Eq (* unreachable!() *)
       end.

(** morphism.rs:1351-1367 [sort_table_intrinsic] *)
Definition sort_table (so : sorter) (names : list str) (t : table) : res table :=
  let? cols := resolve_indices names t in
  Ok (fold_left (fun t c => table_sort so cmp_table_entries c t) cols t).

(** morphism.rs:1470-1489 [sort_values]: [values[1..]] panics on an empty vector; an error of the
    comparison counts as equal during the sort and is reported afterwards. *)
Definition last_err {A} (cmp : A -> A -> res comparison) (made : list (A * A)) : res unit :=
  fold_left (fun e ab => match e with
                         | Panic => Panic
                         | _ => match cmp (fst ab) (snd ab) with
                                | Ok _ => e
                                | Err x => Err x
                                | Panic => Panic
                                end
                         end) made (Ok tt).
Definition sort_values (so : sorter) (cmp : value -> value -> res comparison)
    (values : list (nat * value)) : res (list (nat * value)) :=
  match values with
  | [] => Panic
  | h :: vs =>
      let cmp' := fun a b : nat * value => cmp (snd a) (snd b) in
      let (sorted, made) := so (nat * value)%type (cmp_or_eq cmp') vs in
      let? _ := last_err cmp' made in
      Ok (h :: sorted)
  end.

(** morphism.rs:1491-1505 [reorder_table]: the owned branch moves rows out and leaves an empty
    row in their place. *)
Fixpoint reorder_owned (order : list (nat * value)) (raw : table) : res (list row) :=
  match order with
  | [] => Ok []
  | (i, _) :: order =>
      match nth_error raw i with
      | None => Panic
      | Some r => let? rs := reorder_owned order (set_nth i [] raw) in Ok (r :: rs)
      end
  end.
Definition reorder_shared (order : list (nat * value)) (t : table) : res (list row) :=
  rmapM (fun iv => match nth_error t (fst iv) with Some r => Ok r | None => Panic end) order.
Definition reorder_table (owned : bool) (t : table) (order : list (nat * value)) : res table :=
  let? x := (if owned then reorder_owned order t else reorder_shared order t) in
  Ok (table_from x).

(** morphism.rs:1438-1458 [sortby_table_intrinsic] *)
Definition sortby_table {C} (so : sorter) (ev : C -> nat -> res value * C) (init : C)
    (sched : list (nat * nat)) (cmp : value -> value -> res comparison) (owned : bool) (t : table)
    : res table :=
  let? values := resolve_trow_expr_par ev init sched t in
  let? sorted := sort_values so cmp (combine (seq 0 (length values)) values) in
  reorder_table owned t sorted.

(** ** Adding tables: arithmetic.rs:110-186 *)

(** Remove columns (rows) [n..p) from the highest down: arithmetic.rs:138-140, 177-179. *)
Definition remove_cols_down (n p : nat) (t : table) : table :=
  fold_left (fun t j => remove_col j t) (rev (seq n (p - n))) t.
Definition remove_rows_down (n p : nat) (t : table) : table :=
  fold_left (fun t i => remove_row i t) (rev (seq n (p - n))) t.

(** arithmetic.rs:128-165 [add_table_by_row] *)
Definition add_table_by_row (intersect : bool) (prev next : table) : res table :=
  let pc := cols_len prev in
  let nc := cols_len next in
  if intersect then
    let t := add_rows prev (map (firstn (Nat.min pc nc)) (skipn 1 next)) in
    Ok (if nc <? pc then remove_cols_down nc pc t else t)
  else if is_empty prev then Ok next
  else
    let t := add_rows prev (skipn 1 next) in
    if pc <? nc then
      fold_left
        (fun t j =>
           let? t := t in
           if j <? cols_len t then
             match get_col next j with
             | None => Panic                      (* next.col(col).unwrap() *)
             | Some c => Ok (set_cell 0 j (nth 0 c ENil) t)
             end
           else Panic)                            (* col_mut(col).expect(..) *)
        (seq pc (nc - pc)) (Ok t)
    else Ok t.

(** arithmetic.rs:167-186 [add_table_by_col] *)
Definition table_cols (t : table) : list (list ent) :=
  map (fun j => map (fun r => nth j r ENil) t) (seq 0 (cols_len t)).
Definition add_table_by_col (intersect : bool) (prev next : table) : table :=
  let pr := rows_len prev in
  let nr := rows_len next in
  if intersect then
    let t := add_cols prev (map (firstn (Nat.min pr nr)) (table_cols next)) in
    if nr <? pr then remove_rows_down nr pr t else t
  else add_cols prev (table_cols next).

(** arithmetic.rs:120-126 [add_table2] *)
Definition add_table2 (byrow intersect : bool) (prev next : table) : res table :=
  if byrow then add_table_by_row intersect prev next
  else Ok (add_table_by_col intersect prev next).

(** ** pipeline.rs: len, nth, range, Table *)

(** pipeline.rs:300-310 and 332-349 *)
Definition len_str (s : str) : Z := num_of_Z (Z.of_nat (length s)).
Definition len_table (cols : bool) (t : table) : Z :=
  num_of_Z (Z.of_nat (if cols then cols_len t else rows_len t - 1)).

Fixpoint nthN {A} (n : N) (l : list A) : option A :=
  match l with
  | [] => None
  | x :: l => if (n =? 0)%N then Some x else nthN (N.pred n) l
  end.
(** pipeline.rs:473-500 [nth_str_intrinsic] *)
Definition nth_str (n : value) (s : str) : res str :=
  let? n := cnv_num_to_usize n in
  match nthN n s with Some c => Ok [c] | None => Err 24 end.
(** pipeline.rs:523-552 [nth_table_intrinsic]: [nth + 1] is computed unchecked. *)
Definition nth_table (checked : bool) (n : value) (expr : nat -> res value) (t : table) : res value :=
  let? n := cnv_num_to_usize n in
  let? n1 := usize_succ checked n in
  if (N.of_nat (rows_len t) <=? n1)%N then Err 25
  else expr (N.to_nat n1).

(** intrinsics/mod.rs:299-311 at [u128] *)
Definition cnv_num_to_u128 (v : value) : res N :=
  match v with
  | VNum z =>
      if (z mod num_unit =? 0)%Z && (0 <=? z)%Z && (z / num_unit <? 2 ^ 128)%Z
      then Ok (Z.to_N (z / num_unit)) else Err 2
  | _ => Err 1
  end.
(** pipeline.rs:681-685 [table_range], 680-723 [range_intrinsic] *)
Definition table_range (from to : N) : table :=
  table_from ([o (lit "i")] ::
    map (fun k => [ENum (num_of_Z (Z.of_N (from + N.of_nat k)))]) (seq 0 (N.to_nat (to - from)))).
Definition range (from to : value) : res table :=
  let? f := cnv_num_to_u128 from in
  let? t := cnv_num_to_u128 to in
  Ok (table_range f t).

(** pipeline.rs:743-764 [table_intrinsic] *)
Definition table_ctor (names : list (res value)) : res table :=
  let? ns := rmapM (fun r => r) names in
  Ok (fold_left (fun t v => add_col t [ent_of_val v]) ns []).
