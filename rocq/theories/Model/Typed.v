(** Compiling a typed program: choosing nothing, checking everything.

    A program here is one whose ops have been chosen by the type of their input (C33) and for whose arguments the type graph
    has settled on types (C28, C31); these choices are part of the program and are arbitrary.  What is modelled is what
    compiling it checks (eng/comp/mod.rs:449-560, eng/arg.rs, eng/blk.rs and the intrinsics) and the steps it makes. *)
From Coq Require Import String List ZArith NArith Bool.
From Verif Require Import Model.Base Model.Value Model.TableCrate Model.RowPar Model.TableOps Model.Tuple Model.Exec
  Model.Intrinsics Model.Compare.
Import ListNotations.
Set Implicit Arguments.

Section Typed.
Variable W : Type.
Local Notation step := (step W).
Local Notation hold := (hold W).
Local Notation act := (act W).
Local Notation node := (node W).

(** ** Ops that resolve their arguments once, in order *)

(** the arguments from the [i]-th on, each on the input of the block ([true]) or on nil *)
Fixpoint gather_args (sig : list bool) (i : nat) (input : value) (acc : list value) (k : list value -> act) : act :=
  match sig with
  | [] => k (rev acc)
  | b :: sig => Resolve i (if b then input else VNil) (fun x => gather_args sig (S i) input (x :: acc) k)
  end.
Definition gather_step (sig : list bool) (f : value -> list value -> res value) (hs : list hold) : step :=
  Op hs [] (fun input => gather_args sig 0 input [] (fun xs => try (f input xs) (fun x => Done x))).

(** [next_arg()?.supplied(..)?.returns(..)?.concrete()?] for each argument, then none must be left (C26) *)
Fixpoint take_args (in_ty : ty) (sig : list (bool * ty)) (args : list node) : res (list hold) :=
  match sig, args with
  | [], [] => Ok []
  | [], _ :: _ => Err 3
  | _ :: _, [] => Err 1
  | (b, t) :: sig, n :: args =>
      let? n := supplied (if b : bool then in_ty else TNil) n in let? n := returns t n in let? h := concrete n in
      let? hs := take_args in_ty sig args in Ok (h :: hs)
  end.
Definition simple (tin : option ty) (sig : list (bool * ty)) (out : ty) (f : value -> list value -> res value)
  (in_ty : ty) (args : list node) : res (step * ty) :=
  let? _ := match tin with Some t => assert_input t in_ty | None => Ok tt end in
  let? hs := take_args in_ty sig args in
  Ok (gather_step (map fst sig) f hs, out).

(** arithmetic.rs:204-216, 237-249 [ceil], [floor]; 269-281 [is-finite]; 317-342 [root]: on some number *)
Definition num1 (f : Z -> Z) := simple (Some TNum) [] TNum (fun v _ => let? n := as_num v in Ok (VNum (f n))).
Definition num_test (f : Z -> bool) := simple (Some TNum) [] TBool (fun v _ => let? n := as_num v in Ok (VBool (f n))).
Definition root (f : Z -> Z -> Z) := simple (Some TNum) [(true, TNum)] TNum
  (fun v xs => match xs with [x] => let? i := as_num x in let? n := as_num v in Ok (VNum (f i n)) | _ => Panic end).
(** pipeline.rs:300-310, 332-349 [len] *)
Definition len_str_op := simple (Some TStr) [] TNum (fun v _ => let? s := as_str v in Ok (VNum (len_str s))).
Definition len_tab_op (cols : bool) := simple (Some TTab) [] TNum (fun v _ => let? t := as_tab v in Ok (VNum (len_table cols t))).
(** one number argument: pipeline.rs:473-500 [nth], morphism.rs:1267-1284 [skip], 1526-1543 [take] on strings *)
Definition counted {A} (t : ty) (from : value -> res A) (to : A -> value) (f : value -> A -> res A) :=
  simple (Some t) [(true, TNum)] t
    (fun v xs => match xs with [n] => let? a := from v in let? a := f n a in Ok (to a) | _ => Panic end).
Definition nth_str_op := counted TStr as_str VStr nth_str.
Definition take_str_op := counted TStr as_str VStr take_str.
Definition skip_str_op := counted TStr as_str VStr skip_str.
(** morphism.rs:1298-1326, 1557-1585; without overflow checks *)
Definition take_tab_op (owned : bool) := counted TTab as_tab VTab (take_table owned).
Definition skip_tab_op (owned : bool) := counted TTab as_tab VTab (skip_table false owned).
(** morphism.rs:1209-1246 [rev], 195-217 [dedup] on strings *)
Definition rev_str_op := simple (Some TStr) [] TStr (fun v _ => let? s := as_str v in Ok (VStr (rev_str s))).
Definition rev_tab_op (cols : bool) := simple (Some TTab) [] TTab (fun v _ => let? t := as_tab v in Ok (VTab (rev_table cols t))).
Definition dedup_str_op := simple (Some TStr) [] TStr (fun v _ => let? s := as_str v in Ok (VStr (dedup_str s))).
(** pipeline.rs:681-723 [range]: with one argument up to the input, or with two *)
Definition range_to_op := simple (Some TNum) [(true, TNum)] TTab
  (fun v xs => match xs with [a] => let? t := range a v in Ok (VTab t) | _ => Panic end).
Definition range_op := simple None [(true, TNum); (true, TNum)] TTab
  (fun _ xs => match xs with [a; b] => let? t := range a b in Ok (VTab t) | _ => Panic end).

(** pipeline.rs:745-764 [Table]: names of columns *)
Definition table_op (in_ty : ty) (args : list node) : res (step * ty) :=
  simple None (map (fun _ => (true, TStr)) args) TTab
    (fun _ xs => let? t := table_ctor (map (fun x => Ok x) xs) in Ok (VTab t)) in_ty args.

(** ** Structures *)
(** each argument: given the input of the block *)
Fixpoint all_supplied (in_ty : ty) (args : list node) : res (list hold) :=
  match args with
  | [] => Ok []
  | n :: args => let? n := supplied in_ty n in let? h := concrete n in let? hs := all_supplied in_ty args in Ok (h :: hs)
  end.
(** pipeline.rs:889-914 [Tuple] *)
Definition tuple_op (in_ty : ty) (args : list node) : res (step * ty) :=
  if Nat.ltb (length args) 2 then Err 1
  else let? hs := all_supplied in_ty args in
       let d := tuple_ty (map (@n_out W) args) in
       Ok (gather_step (map (fun _ => true) args) (fun _ xs => Ok (VOgma d 0 xs)) hs, TDef d).
(** lang/impls/mod.rs:344-364: the fields of the [k]-th variant, or of the product; 366-390 [typedef_init] *)
Definition variant_fields (d : tydef) (k : nat) : option (list (str * ty)) :=
  match td_tv d with
  | TProduct fs => match k with 0 => Some fs | S _ => None end
  | TSum vs => match nth_error vs k with Some (_, Some fs) => Some fs | Some (_, None) => Some [] | None => None end
  end.
Definition init_op (d : tydef) (k : nat) (in_ty : ty) (args : list node) : res (step * ty) :=
  match variant_fields d k with
  | Some fs => simple None (map (fun f => (true, snd f)) fs) (TDef d) (fun _ xs => Ok (VOgma d k xs)) in_ty args
  | None => Err 4
  end.

(** pipeline.rs:280-286 [\ ] *)
Definition in_op (in_ty : ty) (args : list node) : res (step * ty) :=
  match args with
  | [n] => let? n := supplied in_ty n in let? h := concrete n in Ok (in_step h, n_out n)
  | [] => Err 1
  | _ => Err 3
  end.

(** eng/arg.rs [extract_literal], on strings *)
Definition literal_str (h : hold) : res str := match h with HLit (VStr s) => Ok s | _ => Err 10 end.
(** pipeline.rs:165-194 [FieldAccessor::construct] *)
Definition accessor (t : ty) (h : hold) : res (nat * ty) :=
  match t with
  | TDef (TyDef _ (TProduct fs)) =>
      let? x := literal_str h in match find_field x fs with Some r => Ok r | None => Err 31 end
  | _ => Err 30
  end.
(** pipeline.rs:114-120 [get] *)
Definition get_op (in_ty : ty) (args : list node) : res (step * ty) :=
  match args with
  | [n] => let? n := supplied in_ty n in let? h := concrete n in
           let? r := accessor in_ty h in Ok (get_step W (fst r), snd r)
  | [] => Err 1
  | _ => Err 3
  end.

(** pipeline.rs:135-157 [table_row_get]; the column cache changes nothing (C17) *)
Definition as_row (v : value) : res (table * nat) := match v with VTabRow t i _ => Ok (t, i) | _ => Err 1 end.
Definition row_lookup (t : table) (i : nat) (col : value) : res ent :=
  let? name := as_str col in fst (row_entry t i [] name).
(** pipeline.rs:68-99 [get] on a table row, with a type (a flag, or the type the output is known to have) *)
Definition get_row_op (out : ty) := simple (Some TTabRow) [(false, TStr)] out
  (fun v xs => match xs with
               | [x] => let? r := as_row v in let? e := row_lookup (fst r) (snd r) x in cnv_value e out
               | _ => Panic
               end).
(** ... with a default, which is resolved only if the entry has another type *)
Definition get_default_step (out : ty) (hs : list hold) : step :=
  Op hs [] (fun v => try (as_row v) (fun r => Resolve 0 VNil (fun x => try (row_lookup (fst r) (snd r) x) (fun e =>
    let x := val_of_ent e in
    if ty_eqb (ty_of x) out then Done x else Resolve 1 VNil (fun x => Done x))))).
Definition get_default_op (in_ty : ty) (args : list node) : res (step * ty) :=
  let? _ := assert_input TTabRow in_ty in
  match args with
  | [c; d] =>
      let? c := supplied TNil c in let? c := returns TStr c in let? hc := concrete c in
      let? d := supplied TNil d in let? hd := concrete d in
      Ok (get_default_step (n_out d) [hc; hd], n_out d)
  | _ => Err 1
  end.

(** pipeline.rs:232-259 [.]; on a table row the output is of the type the type graph has for it *)
Definition dot_row_step (out : ty) (hs : list hold) : step :=
  Op hs [] (fun v => Resolve 0 v (fun r => try (as_row r) (fun r => Resolve 1 VNil (fun x =>
    try (row_lookup (fst r) (snd r) x) (fun e => try (cnv_value e out) (fun x => Done x)))))).
Definition dot_op (out : ty) (in_ty : ty) (args : list node) : res (step * ty) :=
  match args with
  | [n; f] =>
      let? n := supplied in_ty n in let? h := concrete n in
      let? f := supplied TNil f in
      match n_out n with
      | TTabRow => let? f := returns TStr f in let? hf := concrete f in Ok (dot_row_step out [h; hf], out)
      | t => let? hf := concrete f in let? r := accessor t hf in Ok (dot_step h (fst r), snd r)
      end
  | _ => Err 1
  end.

(** ** Ops that resolve an argument for each row; sequentially here (C04) *)
(** pipeline.rs:523-552 [nth] on tables, without overflow checks *)
Definition nth_tab_step (hs : list hold) : step :=
  Op hs [] (fun v => Resolve 0 v (fun n => try (cnv_num_to_usize n) (fun n => try (as_tab v) (fun t =>
    try (usize_succ false n) (fun n1 =>
    if (N.of_nat (rows_len t) <=? n1)%N then Fail 25
    else Resolve 1 (VTabRow t (N.to_nat n1) 0) (fun x => Done x)))))).
Definition nth_tab_op (in_ty : ty) (args : list node) : res (step * ty) :=
  let? _ := assert_input TTab in_ty in
  match args with
  | [n; e] =>
      let? n := supplied in_ty n in let? n := returns TNum n in let? hn := concrete n in
      let? e := supplied TTabRow e in let? he := concrete e in
      Ok (nth_tab_step [hn; he], n_out e)
  | [] | [_] => Err 1
  | _ => Err 3
  end.

(** the [a]-th argument on each of the rows [i], [i+1], ... of which there are [k] *)
Fixpoint over_rows (a : nat) (t : table) (k i : nat) (acc : list value) (cont : list value -> act) : act :=
  match k with
  | 0 => cont (rev acc)
  | S k => Resolve a (VTabRow t i 0) (fun x => over_rows a t k (S i) (x :: acc) cont)
  end.
(** morphism.rs:373-392, 428-440 [filter] with a predicate on rows, on a table that is shared *)
Definition filter_tab_step (hs : list hold) : step :=
  Op hs [] (fun v => try (as_tab v) (fun t => over_rows 0 t (pred (rows_len t)) 1 [] (fun xs =>
    try (rmapM as_bool xs) (fun keep =>
    try (retain_keep_rows false t (true :: keep)) (fun t => Done (VTab t)))))).
Definition filter_tab_op (in_ty : ty) (args : list node) : res (step * ty) :=
  let? _ := assert_input TTab in_ty in
  match args with
  | [n] => let? n := supplied TTabRow n in let? n := returns TBool n in let? h := concrete n in Ok (filter_tab_step [h], TTab)
  | _ => Err 1
  end.

(** morphism.rs:60-135 [append]: a column with its name for each argument *)
Definition column_of (rows : nat) (name : str) (vs : list value) : list ent :=
  match rows with 0 => [] | S _ => o name :: map ent_of_val vs end.
Fixpoint append_loop (t : table) (names : list str) (a : nat) (cols : list (list ent)) : act :=
  match names with
  | [] => Done (VTab (add_cols t (rev cols)))
  | x :: names => over_rows a t (pred (rows_len t)) 1 [] (fun vs =>
                    append_loop t names (S a) (column_of (rows_len t) x vs :: cols))
  end.
Definition append_step (names : list str) (hs : list hold) : step :=
  Op hs [] (fun v => try (as_tab v) (fun t => append_loop t names 0 [])).
Definition append_op (flags : list str) (in_ty : ty) (args : list node) : res (step * ty) :=
  let? _ := assert_input TTab in_ty in
  match args with
  | [] => Err 1
  | _ => let? hs := all_supplied TTabRow args in Ok (append_step (append_names (length args) flags 1) hs, TTab)
  end.
(** morphism.rs:148-181 [append-row] *)
Definition append_row_op (in_ty : ty) (args : list node) : res (step * ty) :=
  let? _ := assert_input TTab in_ty in
  let? hs := all_supplied in_ty args in
  Ok (gather_step (map (fun _ => true) args)
        (fun v xs => let? t := as_tab v in let? t := append_row (map (fun x => Ok x) xs) t in Ok (VTab t)) hs, TTab).

(** morphism.rs:547-580 [fold]: variable 0 is [$row] in the second argument *)
Fixpoint fold_act (t : table) (k i : nat) (x : value) : act :=
  match k with
  | 0 => Done x
  | S k => SetVar 0 (VTabRow t i 0) (Resolve 1 x (fun x => fold_act t k (S i) x))
  end.
Definition fold_step (hs : list hold) (row : option nat) : step :=
  Op hs [row] (fun v => try (as_tab v) (fun t => Resolve 0 VNil (fun x => fold_act t (pred (rows_len t)) 1 x))).
(** the slot of the variable an op has put into the scope of one argument *)
Definition row_slot (n : node) : res (option nat) := match n_binder n with Some s => Ok s | None => Err 11 end.
Definition fold_op (in_ty : ty) (args : list node) : res (step * ty) :=
  let? _ := assert_input TTab in_ty in
  match args with
  | [s; a] =>
      let? s := supplied TNil s in let? hs := concrete s in
      let? r := row_slot a in
      let? a := supplied (n_out s) a in let? a := returns (n_out s) a in let? ha := concrete a in
      Ok (fold_step [hs; ha] r, n_out s)
  | [] | [_] => Err 1
  | _ => Err 3
  end.
(** morphism.rs:602-646 [fold-while]: two variables [$row] *)
Fixpoint fold_while_act (t : table) (k i : nat) (x : value) : act :=
  match k with
  | 0 => Done x
  | S k => SetVar 0 (VTabRow t i 0) (Resolve 1 x (fun met => try (as_bool met) (fun met =>
             if met then SetVar 1 (VTabRow t i 0) (Resolve 2 x (fun x => fold_while_act t k (S i) x)) else Done x)))
  end.
Definition fold_while_step (hs : list hold) (rows : list (option nat)) : step :=
  Op hs rows (fun v => try (as_tab v) (fun t => Resolve 0 VNil (fun x => fold_while_act t (pred (rows_len t)) 1 x))).
Definition fold_while_op (in_ty : ty) (args : list node) : res (step * ty) :=
  let? _ := assert_input TTab in_ty in
  match args with
  | [s; p; a] =>
      let? s := supplied TNil s in let? hs := concrete s in
      let? rp := row_slot p in
      let? p := supplied (n_out s) p in let? p := returns TBool p in let? hp := concrete p in
      let? ra := row_slot a in
      let? a := supplied (n_out s) a in let? a := returns (n_out s) a in let? ha := concrete a in
      Ok (fold_while_step [hs; hp; ha] [rp; ra], n_out s)
  | [] | [_] | [_; _] => Err 1
  | _ => Err 3
  end.

(** ** Ops on tables that take names of columns *)
(** intrinsics/mod.rs:244-297 [ColNameArgs]: each name on nil, and its column looked for before the next name; [forgive]: a
    name which is no column is let pass (the [add] flag of [pick]) *)
Definition names_sig (args : list node) : list (bool * ty) := map (fun _ => (false, TStr)) args.
Fixpoint names_act (forgive : bool) (t : table) (k i : nat) (acc : list str) (cont : list str -> act) : act :=
  match k with
  | 0 => cont (rev acc)
  | S k => Resolve i VNil (fun x => try (as_str x) (fun name =>
             match col_idx t name with
             | Ok _ => names_act forgive t k (S i) (name :: acc) cont
             | Err e => if forgive then names_act forgive t k (S i) (name :: acc) cont else Fail e
             | Panic => Crash
             end))
  end.
Definition by_names (forgive : bool) (f : list str -> table -> res table) (in_ty : ty) (args : list node) : res (step * ty) :=
  let? _ := assert_input TTab in_ty in
  let? hs := take_args in_ty (names_sig args) args in
  Ok (Op hs [] (fun v => try (as_tab v) (fun t => names_act forgive t (length hs) 0 [] (fun names =>
        try (f names t) (fun t => Done (VTab t))))), TTab).
(** at least one name (mod.rs:250-253) *)
Definition some_names (op : list node -> res (step * ty)) (args : list node) : res (step * ty) :=
  match args with [] => Err 1 | _ => op args end.
(** morphism.rs:241-266 [dedup] on tables *)
Definition dedup_tab_op := by_names false (fun names => dedup_table (match names with [] => None | _ => Some names end)).
(** morphism.rs:1349-1366 [sort] *)
Definition sort_op (so : sorter) (in_ty : ty) := some_names (by_names false (sort_table so) in_ty).
(** morphism.rs:971-1012 [pick]; that its input is a table is by the choice of the op *)
Definition pick_op (add trail : bool) (in_ty : ty) := some_names (by_names add (pick_table add trail) in_ty).
(** morphism.rs:671-710 [grp]; [fmt]: [print::fmt_cell] *)
Definition grp_op (fmt : ent -> str) (in_ty : ty) (args : list node) : res (step * ty) :=
  let? _ := assert_input TTab in_ty in
  match args with
  | [] => Err 1
  | _ => let? hs := take_args in_ty (names_sig args) args in
         Ok (Op hs [] (fun v => try (as_tab v) (fun t => if is_empty t then Fail 20 else
               names_act false t (length hs) 0 [] (fun names => try (grp_table fmt names t) (fun t => Done (VTab t))))), TTab)
  end.

(** ** Filtering by a column, columns, characters.  An error stops the loops here; the code goes on and reports the last. *)
(** the type flag of an op, if there is one, is the type its argument is given (intrinsics/mod.rs:195-210) *)
Definition flagged (flag : option ty) (n : node) : res node := match flag with Some t => supplied t n | None => Ok n end.
(** morphism.rs:393-468 [filter] with a column *)
Fixpoint filter_col_act (exp : ty) (name : str) (t : table) (k i : nat) (acc : list bool) (cont : list bool -> act) : act :=
  match k with
  | 0 => cont (rev acc)
  | S k => try (fst (row_entry t i [] name)) (fun e =>
             match cnv_value e exp with
             | Ok v => Resolve 1 v (fun b => try (as_bool b) (fun b => filter_col_act exp name t k (S i) (b :: acc) cont))
             | _ => filter_col_act exp name t k (S i) (false :: acc) cont
             end)
  end.
Definition filter_col_op (flag : option ty) (in_ty : ty) (args : list node) : res (step * ty) :=
  let? _ := assert_input TTab in_ty in
  match args with
  | [c; p] =>
      let? c := supplied TNil c in let? c := returns TStr c in let? hc := concrete c in
      let? p := flagged flag p in let? p := returns TBool p in let? hp := concrete p in
      Ok (Op [hc; hp] [] (fun v => try (as_tab v) (fun t => Resolve 0 VNil (fun x => try (as_str x) (fun name =>
            filter_col_act (n_in p) name t (pred (rows_len t)) 1 [] (fun keep =>
            try (retain_keep_rows false t (true :: keep)) (fun t => Done (VTab t))))))), TTab)
  | [] | [_] => Err 1
  | _ => Err 3
  end.
(** morphism.rs:490-520 [filter --cols] *)
Fixpoint filter_cols_act (n : nat) (t : table) : act :=
  match n with
  | 0 => Done (VTab t)
  | S j => Resolve 0 (VStr (hdr_text t j)) (fun b => try (as_bool b) (fun b =>
             filter_cols_act j (if b : bool then t else remove_col j t)))
  end.
Definition filter_cols_op (in_ty : ty) (args : list node) : res (step * ty) :=
  let? _ := assert_input TTab in_ty in
  let? hs := take_args TStr [(true, TBool)] args in
  Ok (Op hs [] (fun v => try (as_tab v) (fun t => filter_cols_act (cols_len t) t)), TTab).
(** morphism.rs:279-311 [filter] on strings *)
Fixpoint filter_str_act (s : str) (acc : str) : act :=
  match s with
  | [] => Done (VStr (rev acc))
  | c :: s => Resolve 0 (VStr [c]) (fun b => try (as_bool b) (fun b => filter_str_act s (if b : bool then c :: acc else acc)))
  end.
Definition filter_str_op (in_ty : ty) (args : list node) : res (step * ty) :=
  let? _ := assert_input TStr in_ty in
  let? hs := take_args TStr [(true, TBool)] args in
  Ok (Op hs [] (fun v => try (as_str v) (fun s => filter_str_act s [])), TStr).

(** morphism.rs:877-951 [map]: variable 0 is [$row] in the second argument; [force]: the entry is not looked at *)
Fixpoint map_act (force : bool) (exp : ty) (j : nat) (t : table) (k i : nat) (acc : list value) (cont : list value -> act) : act :=
  match k with
  | 0 => cont (rev acc)
  | S k => SetVar 0 (VTabRow t i 0)
             (try (if force then Ok VNil else let? e := entry_at t i j in cnv_value e exp) (fun v =>
              Resolve 1 v (fun x => map_act force exp j t k (S i) (x :: acc) cont)))
  end.
Definition map_col (j : nat) (t : table) (vs : list value) : table :=
  match t with h :: d => h :: zip_col j d vs | [] => [] end.
Definition map_op (force : bool) (flag : option ty) (in_ty : ty) (args : list node) : res (step * ty) :=
  let? _ := assert_input TTab in_ty in
  match args with
  | [c; f] =>
      let? c := supplied TNil c in let? c := returns TStr c in let? hc := concrete c in
      let? r := row_slot f in
      let? f := flagged (if force then Some TNil else flag) f in let? hf := concrete f in
      Ok (Op [hc; hf] [r] (fun v => try (as_tab v) (fun t => Resolve 0 VNil (fun x => try (as_str x) (fun name =>
            try (col_idx t name) (fun j => map_act force (n_in f) j t (pred (rows_len t)) 1 [] (fun vs =>
            Done (VTab (map_col j t vs)))))))), TTab)
  | [] | [_] => Err 1
  | _ => Err 3
  end.

(** ** Renaming *)
(** morphism.rs:1050-1066: pairs of a column and its name; a column is given by a number or by its name *)
Fixpoint ren_args (args : list node) : res (list hold * list bool) :=
  match args with
  | [] => Ok ([], [])
  | [_] => Err 3
  | c :: n :: args =>
      let? c := supplied TNil c in
      let idx := ty_eqb (n_out c) TNum in
      let? c := returns (if idx then TNum else TStr) c in let? hc := concrete c in
      let? n := supplied TNil n in let? n := returns TStr n in let? hn := concrete n in
      let? r := ren_args args in
      Ok (hc :: hn :: fst r, idx :: snd r)
  end.
(** morphism.rs:1069-1088: which columns *)
Fixpoint ren_cols (t : table) (refs : list bool) (i : nat) (acc : list N) (cont : list N -> act) : act :=
  match refs with
  | [] => cont (rev acc)
  | idx :: refs => Resolve i VNil (fun x =>
      try (resolve_ref t (if idx : bool then RefIdx (Ok x) else RefName (Ok x))) (fun n =>
      ren_cols t refs (S (S i)) (n :: acc) cont))
  end.
(** morphism.rs:1090-1108: their names *)
Fixpoint ren_names (t : table) (idxs : list N) (i : nat) : act :=
  match idxs with
  | [] => Done (VTab t)
  | n :: idxs =>
      if (n <? N.of_nat (cols_len t))%N
      then Resolve i VNil (fun x => ren_names (set_cell 0 (N.to_nat n) (ent_of_val x) t) idxs (S (S i)))
      else Fail 21
  end.
Definition ren_op (in_ty : ty) (args : list node) : res (step * ty) :=
  let? _ := assert_input TTab in_ty in
  let? r := ren_args args in
  Ok (Op (fst r) [] (fun v => try (as_tab v) (fun t => ren_cols t (snd r) 0 [] (fun idxs => ren_names t idxs 1))), TTab).
(** morphism.rs:1142-1195 [ren-with] *)
Fixpoint ren_with_act (exp : ty) (r : row) (acc : list str) (cont : list str -> act) : act :=
  match r with
  | [] => cont (rev acc)
  | e :: r => try (cnv_value e exp) (fun v => Resolve 1 v (fun x => try (as_str x) (fun name => ren_with_act exp r (name :: acc) cont)))
  end.
Definition ren_with_op (flag : option ty) (in_ty : ty) (args : list node) : res (step * ty) :=
  let? _ := assert_input TTab in_ty in
  match args with
  | [i; e] =>
      let? i := supplied TNil i in let? i := returns TNum i in let? hi := concrete i in
      let? e := flagged flag e in let? e := returns TStr e in let? he := concrete e in
      Ok (Op [hi; he] [] (fun v => Resolve 0 VNil (fun n => try (cnv_num_to_usize n) (fun n => try (as_tab v) (fun t =>
            match t with
            | [] => Fail 22
            | h :: d =>
                if (n <? N.of_nat (rows_len t))%N
                then match nth_error t (N.to_nat n) with
                     | None => Crash
                     | Some r => ren_with_act (n_in e) r [] (fun hs =>
                         Done (VTab ((map (fun eh => EObj (VStr (snd eh))) (combine h hs) ++ skipn (length hs) h) :: d)))
                     end
                else Fail 23
            end)))), TTab)
  | [] | [_] => Err 1
  | _ => Err 3
  end.

(** ** Adding tables; sorting and grouping by an expression *)
(** arithmetic.rs:110-118 [+] on tables *)
Fixpoint add_tab_act (byrow intersect : bool) (v : value) (k i : nat) (t : table) : act :=
  match k with
  | 0 => Done (VTab t)
  | S k => Resolve i v (fun x => try (as_tab x) (fun u => try (add_table2 byrow intersect t u) (fun t =>
             add_tab_act byrow intersect v k (S i) t)))
  end.
Definition add_tab_op (byrow intersect : bool) (in_ty : ty) (args : list node) : res (step * ty) :=
  let? _ := assert_input TTab in_ty in
  match args with
  | [] => Err 1
  | _ => let? hs := all_return in_ty TTab args in
         Ok (Op hs [] (fun v => try (as_tab v) (fun t => add_tab_act byrow intersect v (length hs) 0 t)), TTab)
  end.
(** intrinsics/mod.rs:336-460 [BinaryOp::cmp_cmd]: [cmp] on two values of a type that has one built in, in an environment of
    its own; 449-456 [cnv_value_to_ord] *)
Definition cmp_values (t : ty) (a b : value) : res comparison :=
  let? s := cmp_step t (HLit b : Exec.hold unit) in
  match snd (invoke s a [] tt) with
  | Ok (v, _) => match variant_idx v with Some 0 => Ok Lt | Some 1 => Ok Eq | _ => Ok Gt end
  | Err e => Err e
  | Panic => Panic
  end.
(** one argument for each row, of a type that can be compared *)
Definition key_arg (args : list node) : res (hold * ty) :=
  match args with
  | [n] => let? n := supplied TTabRow n in let? h := concrete n in
           let? _ := cmp_step (n_out n) (HLit VNil : Exec.hold unit) in Ok (h, n_out n)
  | [] => Err 1
  | _ => Err 3
  end.
(** morphism.rs:751-835 [grp-by] *)
Definition grp_by_op (in_ty : ty) (args : list node) : res (step * ty) :=
  let? _ := assert_input TTab in_ty in
  let? k := key_arg args in
  Ok (Op [fst k] [] (fun v => try (as_tab v) (fun t => over_rows 0 t (pred (rows_len t)) 1 [] (fun keys =>
        Done (VTab (build_table_from_map
          (match t with h :: d => grpby_loop (cmp_values (snd k)) h d keys [] | [] => [] end) (fun k => k)))))), TTab).
(** morphism.rs:1438-1505 [sort-by], on a table that is shared *)
Definition sort_by_op (so : sorter) (in_ty : ty) (args : list node) : res (step * ty) :=
  let? _ := assert_input TTab in_ty in
  let? k := key_arg args in
  Ok (Op [fst k] [] (fun v => try (as_tab v) (fun t => over_rows 0 t (pred (rows_len t)) 1 [] (fun keys =>
        try (sort_values so (cmp_values (snd k)) (match t with [] => [] | _ => combine (seq 0 (rows_len t)) (VNil :: keys) end)) (fun order =>
        try (reorder_table false t order) (fun t => Done (VTab t)))))), TTab).

(** ** Text *)
(** pipeline.rs:766-850 [to-str]: on booleans, on numbers, with a format or without, on strings, and on everything else;
    [parse]: reading the format; [fmt]: [print::fmt_cell] *)
Definition to_str_bool_op := simple (Some TBool) [] TStr
  (fun v _ => let? b := as_bool v in Ok (VStr (if b : bool then lit "true" else lit "false"))).
Definition to_str_num_op (show : Z -> str) (parse : str -> res (Z -> str)) (in_ty : ty) (args : list node) : res (step * ty) :=
  let? _ := assert_input TNum in_ty in
  match args with
  | [] => Ok (Op [] [] (fun v => try (as_num v) (fun n => Done (VStr (show n)))), TStr)
  | [f] => let? f := supplied in_ty f in let? f := returns TStr f in let? h := concrete f in
           let? s := literal_str h in let? show := parse s in
           Ok (Op [] [] (fun v => try (as_num v) (fun n => Done (VStr (show n)))), TStr)
  | _ => Err 3
  end.
Definition to_str_str_op := simple (Some TStr) [] TStr (fun v _ => let? s := as_str v in Ok (VStr s)).
Definition to_str_op (fmt : ent -> str) := simple None [] TStr (fun v _ => Ok (VStr (fmt (ent_of_val v)))).
(** io.rs:48-66 [ls] on tables: its headers *)
Definition headers (t : table) : res table :=
  match t with [] => Err 22 | h :: _ => Ok (table_from ([o (lit "header")] :: map (fun e => [e]) h)) end.
Definition ls_tab_op := simple (Some TTab) [] TTab (fun v _ => let? t := as_tab v in let? t := headers t in Ok (VTab t)).

(** ** The ops *)
Inductive prim : Type :=
| PAnd | POr | PNot | PIf | PMax | PMin | PCmp | PEq
| PNums (f : Z -> Z -> Z) | PStrs | PNum1 (f : Z -> Z) | PNumTest (f : Z -> bool) | PRoot (f : Z -> Z -> Z)
| PLenStr | PLenTab (cols : bool) | PNthStr | PTakeStr | PSkipStr | PTakeTab (owned : bool) | PSkipTab (owned : bool)
| PRevStr | PRevTab (cols : bool) | PDedupStr | PRangeTo | PRange | PTable
| PIn | PTuple | PInit (d : tydef) (k : nat) | PGet | PGetRow (out : ty) | PGetDefault | PDot (out : ty)
| PNthTab | PFilterTab | PAppend (flags : list str) | PAppendRow | PFold | PFoldWhile
| PDedupTab | PSort (so : sorter) | PPick (add trail : bool) | PGrp (fmt : ent -> str)
| PFilterCol (flag : option ty) | PFilterCols | PFilterStr | PMap (force : bool) (flag : option ty)
| PRen | PRenWith (flag : option ty) | PAddTab (byrow intersect : bool) | PGrpBy | PSortBy (so : sorter)
| PToStrBool | PToStrNum (show : Z -> str) (parse : str -> res (Z -> str)) | PToStrStr | PToStr (fmt : ent -> str) | PLsTab.

Definition op_of (p : prim) : ty -> list node -> res (step * ty) :=
  match p with
  | PAnd => @and_intrinsic W | POr => @or_intrinsic W | PNot => @not_intrinsic W | PIf => @if_intrinsic W
  | PMax => @max_intrinsic W | PMin => @min_intrinsic W | PCmp => @cmp_intrinsic W | PEq => @eq_intrinsic W
  (* arithmetic.rs:26-34, 54-56, 227-229, 304-306, 364-366: [+], [/], [*], [-] *)
  | PNums f => variadic_constrained TNum as_num VNum (fun a b => (f a b, false))
  (* arithmetic.rs:77-82 *)
  | PStrs => variadic_constrained TStr as_str VStr (fun a b => ((a ++ b)%list, false))
  | PNum1 f => num1 f | PNumTest f => num_test f | PRoot f => root f
  | PLenStr => len_str_op | PLenTab c => len_tab_op c | PNthStr => nth_str_op
  | PTakeStr => take_str_op | PSkipStr => skip_str_op | PTakeTab w => take_tab_op w | PSkipTab w => skip_tab_op w
  | PRevStr => rev_str_op | PRevTab c => rev_tab_op c | PDedupStr => dedup_str_op
  | PRangeTo => range_to_op | PRange => range_op | PTable => table_op
  | PIn => in_op | PTuple => tuple_op | PInit d k => init_op d k
  | PGet => get_op | PGetRow t => get_row_op t | PGetDefault => get_default_op | PDot t => dot_op t
  | PNthTab => nth_tab_op | PFilterTab => filter_tab_op | PAppend fs => append_op fs | PAppendRow => append_row_op
  | PFold => fold_op | PFoldWhile => fold_while_op
  | PDedupTab => dedup_tab_op | PSort so => sort_op so | PPick a r => pick_op a r | PGrp f => grp_op f
  | PFilterCol f => filter_col_op f | PFilterCols => filter_cols_op | PFilterStr => filter_str_op | PMap b f => map_op b f
  | PRen => ren_op | PRenWith f => ren_with_op f | PAddTab r i => add_tab_op r i | PGrpBy => grp_by_op | PSortBy so => sort_by_op so
  | PToStrBool => to_str_bool_op | PToStrNum s p => to_str_num_op s p | PToStrStr => to_str_str_op | PToStr f => to_str_op f
  | PLsTab => ls_tab_op
  end.
(** eng/blk.rs:183-220 [inject_manual_var_next_arg]: which arguments have [$row] *)
Definition injects (p : prim) (i : nat) : bool :=
  match p, i with
  | PFold, 1 | PFoldWhile, 1 | PFoldWhile, 2 | PMap _ _, 1 => true
  | _, _ => false
  end.

(** ** Programs *)
Inductive literal := LNil | LBool (b : bool) | LNum (n : Z) | LStr (s : str).
Definition lit_value (l : literal) : value :=
  match l with LNil => VNil | LBool b => VBool b | LNum n => VNum n | LStr s => VStr s end.

(** eng/comp/params.rs: a parameter evaluated at the call, into a slot and maybe of a declared type, or a lazy one *)
Inductive param := PEager (slot : nat) (t : option ty) | PLazy.

(** A binder: its name, and the slot it gets if there is a next block.  An argument: the types the type graph has for it.
    [KOp] has the slot for [$row] of each argument that gets one. *)
Inductive block : Type :=
| KOp (p : prim) (rows : nat -> nat) (args : list argument)
| KLet (bindings : list (argument * (str * option nat))) (trailing : option (str * option nat))
| KCall (params : list (str * param)) (args : list argument) (body : list block)
with argument : Type := Arg (tin tout : ty) (k : argkind)
with argkind : Type :=
| ALit (l : literal)
| AInput
| AVar (x : str)
| AExpr (e : list block).

(** eng/var.rs:7-11 [Local] *)
Inductive local := LVar (slot : nat) (t : ty) | LPtr (n : node).
Definition tscope : Type := str -> option local.
Definition no_locals : tscope := fun _ => None.
Definition bind_local (x : str) (l : local) (g : tscope) : tscope := fun y => if str_eqb x y then Some l else g y.

(** What compiling has settled: a type it has used, a slot with the type of its variable. *)
Inductive fact := FTy (t : ty) | FSlot (s : nat) (t : ty).

(** eng/arg.rs:20-57, 205-275.  A variable that stands for an argument of the call is that argument: the edges between the
    two (comp/mod.rs:287-299) make their types the same. *)
Definition var_node (tin tout : ty) (x : str) (g : tscope) (row : option (option nat)) : node :=
  match g x with
  | Some (LVar s t) => Node tin tout (Ok (HVar s, t)) row
  | Some (LPtr n) => Node (n_in n) (n_out n) (n_hold n) row
  | None => Node tin tout (Err 3) row
  end.
(** [#i]: the type of what it passes on is that of its input (tygraph.rs:225-236) *)
Definition input_hold : hold := HExpr [Op [] [] (fun v => Done v)].

(** eng/comp/mod.rs:506-560 and comp/params.rs:80-230: what is evaluated at the call, and the scope of the body *)
Fixpoint call_params (in_ty : ty) (ps : list (str * param)) (args : list node) (g : tscope)
  : res (list (option nat * hold) * tscope * list fact) :=
  match ps, args with
  | [], [] => Ok ([], g, [])
  | [], _ :: _ => Err 3
  | _ :: _, [] => Err 1
  | (x, PLazy) :: ps, n :: args => call_params in_ty ps args (bind_local x (LPtr n) g)
  | (x, PEager s t) :: ps, n :: args =>
      let? n := supplied in_ty n in
      let? n := match t with Some t => returns t n | None => Ok n end in
      let? h := concrete n in
      let? r := call_params in_ty ps args (bind_local x (LVar s (n_out n)) g) in
      let '(l, g, fs) := r in
      Ok ((Some s, h) :: l, g,
          FSlot s (n_out n) :: match t with Some t => [FTy t] | None => [] end ++ fs)
  end.

(** eng/blk.rs:149-180 [create_var_ref], eng/graphs/locals_graph.rs [new_var]: a name that this block has bound already is
    that variable, with the type and the slot it has *)
Fixpoint bound_slot (x : str) (bs : list (str * nat * ty)) : option nat :=
  match bs with [] => None | (y, s, _) :: bs => if str_eqb x y then Some s else bound_slot x bs end.
Definition new_var (x : str) (s : option nat) (t : ty) (bs : list (str * nat * ty)) : option nat * list (str * nat * ty) :=
  match s with
  | None => (None, bs)
  | Some s => match bound_slot x bs with
              | Some s => (Some s, bs)
              | None => (Some s, bs ++ [(x, s, t)])
              end
  end.
Fixpoint let_args (in_ty : ty) (args : list (node * (str * option nat))) (bs : list (str * nat * ty))
  : res (list hold * list (option nat) * list (str * nat * ty)) :=
  match args with
  | [] => Ok ([], [], bs)
  | (n, (x, s)) :: args =>
      let? n := supplied in_ty n in let? h := concrete n in
      let (v, bs) := new_var x s (n_out n) bs in
      let? r := let_args in_ty args bs in
      let '(hs, vs, bs) := r in Ok (h :: hs, v :: vs, bs)
  end.
Definition see_bound (bs : list (str * nat * ty)) (g : tscope) : tscope :=
  fold_left (fun g b => let '(x, s, t) := b in bind_local x (LVar s t) g) bs g.
Definition bound_facts (bs : list (str * nat * ty)) : list fact := map (fun b => let '(_, s, t) := b in FSlot s t) bs.
(** pipeline.rs:384-458 *)
Definition let_op (in_ty : ty) (args : list (node * (str * option nat))) (trailing : option (str * option nat))
  : res (step * list (str * nat * ty)) :=
  let? r := let_args in_ty args [] in
  let '(hs, vs, bs) := r in
  match trailing with
  | None => Ok (let_step hs vs, bs)
  | Some (x, s) => let (v, bs) := new_var x s in_ty bs in Ok (let_step hs (vs ++ [v]), bs)
  end.

(** eng/comp/mod.rs:335-503; the type of the input of a block is that of the output of the one before it, the type of an
    expression that of its last block (tygraph.rs:193-222) *)
Fixpoint compile_blk (g : tscope) (in_ty : ty) (b : block) {struct b} : res (step * ty * tscope * list fact) :=
  match b with
  | KOp p rows args =>
      let nfs := (fix go (i : nat) (args : list argument) : list (node * list fact) :=
                    match args with
                    | [] => []
                    | a :: args =>
                        (if injects p i
                         then compile_arg (bind_local (lit "row") (LVar (rows i) TTabRow) g) (Some (Some (rows i))) a
                         else compile_arg g None a) :: go (S i) args
                    end) 0 args in
      let? r := op_of p in_ty (map fst nfs) in
      Ok (fst r, snd r, g, FTy (snd r) :: flat_map snd nfs)
  | KLet bindings trailing =>
      let nfs := (fix go (bs : list (argument * (str * option nat))) : list (node * (str * option nat) * list fact) :=
                    match bs with
                    | [] => []
                    | (a, x) :: bs => let r := compile_arg g None a in (fst r, x, snd r) :: go bs
                    end) bindings in
      let? r := let_op in_ty (map fst nfs) trailing in
      Ok (fst r, in_ty, see_bound (snd r) g, bound_facts (snd r) ++ flat_map snd nfs)
  | KCall params args body =>
      let nfs := (fix go (args : list argument) : list (node * list fact) :=
                    match args with
                    | [] => []
                    | a :: args => compile_arg g None a :: go args
                    end) args in
      let? r := call_params in_ty params (map fst nfs) no_locals in
      let '(ps, g', fs) := r in
      let? r := (fix go (g : tscope) (t : ty) (bs : list block) : res (list step * ty * list fact) :=
                   match bs with
                   | [] => Ok ([], t, [])
                   | b :: bs => let? r := compile_blk g t b in
                                let '(s, t, g, fs) := r in
                                let? r := go g t bs in
                                let '(l, t, fs') := r in Ok (s :: l, t, fs ++ fs')
                   end) g' in_ty body in
      let '(l, t, fs') := r in
      Ok (Def ps l, t, g, flat_map snd nfs ++ fs ++ fs')
  end
with compile_arg (g : tscope) (row : option (option nat)) (a : argument) {struct a} : node * list fact :=
  match a with
  | Arg tin tout k =>
      let base := FTy tin :: FTy tout :: match row with Some (Some s) => [FSlot s TTabRow] | _ => [] end in
      match k with
      | ALit l => (Node tin tout (Ok (HLit (lit_value l), ty_of (lit_value l))) row, base)
      | AInput => (Node tin tout (Ok (input_hold, tin)) row, base)
      | AVar x => (var_node tin tout x g row, base)
      | AExpr e =>
          match (fix go (g : tscope) (t : ty) (bs : list block) : res (list step * ty * list fact) :=
                   match bs with
                   | [] => Ok ([], t, [])
                   | b :: bs => let? r := compile_blk g t b in
                                let '(s, t, g, fs) := r in
                                let? r := go g t bs in
                                let '(l, t, fs') := r in Ok (s :: l, t, fs ++ fs')
                   end) g tin e with
          | Ok (l, t, fs) => (Node tin tout (Ok (HExpr l, t)) row, base ++ fs)
          | Err n => (Node tin tout (Err n) row, base)
          | Panic => (Node tin tout Panic row, base)
          end
      end
  end.

(** the blocks of an expression *)
Fixpoint compile (g : tscope) (t : ty) (bs : list block) : res (list step * ty * list fact) :=
  match bs with
  | [] => Ok ([], t, [])
  | b :: bs => let? r := compile_blk g t b in
               let '(s, t, g, fs) := r in
               let? r := compile g t bs in
               let '(l, t, fs') := r in Ok (s :: l, t, fs ++ fs')
  end.
End Typed.
