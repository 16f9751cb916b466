(** What each intrinsic takes and returns. *)
From Coq Require Import String List NArith Bool Arith Permutation.
From Verif Require Import Model.Base Model.Value Model.Ast Model.Registry Model.AstGraph Model.Tuple Model.TyBuild Model.Compile Model.ArgApi Model.Ops
  Spec.AstGraphSpec Spec.CompileSpec Spec.ArgSpec.
From Verif Require Model.TyGraph Model.Locals.
Import ListNotations.

(** An argument: the type it is given, the type it returns, and its text if it is a string that is written out. *)
Record shape := Shape { sh_in : tkey; sh_out : tkey; sh_text : option str }.
Definition to (i o : tkey) (a : shape) : Prop := sh_in a = i /\ sh_out a = o.
Definition from (i : tkey) (a : shape) : Prop := sh_in a = i.
(** What else there is to know of a compiled block: the flags (or names of columns) that make a difference, a type, a field. *)
Record detail := Detail { de_opts : list (option str); de_ty : option tkey; de_field : option nat }.
Definition none : detail := Detail [] None None.
Definition opted (l : list string) : detail := Detail (map (fun x => Some (lit x)) l) None None.
Definition typed_as (t : tkey) : detail := Detail [] (Some t) None.
(** These flags and no others, in any order. *)
Definition flags (l : list string) (fl : list str) : Prop := Permutation (map lit l) fl.

Section Sig.
Variable rep : tkey -> ty.
(** the type a flag means *)
Variable named : str -> option ty.
Variable format : str -> bool.
(** injected code compiles for inputs of this type and returns that *)
Variable ready : injected -> tkey -> tkey -> Prop.
(** what the block should return, if its surroundings say so *)
Variable want : option tkey.

(** The [i]th field is the first one of this name. *)
Definition field_of (t : tkey) (x : str) (i : nat) (u : ty) : Prop :=
  exists n fs, rep t = TDef (TyDef n (TProduct fs)) /\ nth_error fs i = Some (x, u) /\ forall j y v, j < i -> nth_error fs j = Some (y, v) -> y <> x.
Definition tuple (t : tkey) : Prop := exists x, t = KDef (lit "U_" ++ x).
Definition width (t : tkey) (n : nat) : Prop :=
  (exists x fs, rep t = TDef (TyDef x (TProduct fs)) /\ n = length fs) \/ ((forall x fs, rep t <> TDef (TyDef x (TProduct fs))) /\ n = 0).
(** Conditions and branches, and a last branch *)
Inductive ifs (t u : tkey) : list shape -> Prop :=
| ifs_else : forall a, to t u a -> ifs t u [a]
| ifs_then : forall p a l, to t KBool p -> to t u a -> ifs t u l -> ifs t u (p :: a :: l).
(** A column, by name or number, and a new name for it *)
Inductive rens : list shape -> Prop :=
| rens_end : rens []
| rens_one : forall h a l, to KNil KNum h \/ to KNil KStr h -> to KNil KStr a -> rens l -> rens (h :: a :: l).
(** The fields of a variant of a type *)
Definition fields_of (d : tydef) (v : nat) (fs : list (str * ty)) : Prop :=
  (exists n, d = TyDef n (TProduct fs)) \/
  (exists n vs, d = TyDef n (TSum vs) /\ ((exists x, nth_error vs v = Some (x, Some fs)) \/ (fs = [] /\ forall x l, nth_error vs v <> Some (x, Some l)))).
(** What an argument is given: if there is a flag for it, the type that means *)
Definition given (fl : list str) (a : shape) : Prop := fl = [] \/ exists f t, fl = [f] /\ named f = Some t /\ from (key_of t) a.

(** [sig o fl t l u d]: given an input of type [t], the flags [fl] and the arguments [l], [o] is accepted and returns a [u] *)
Inductive sig : op -> list str -> tkey -> list shape -> tkey -> detail -> Prop :=
(** arithmetic *)
| sig_nums : forall o l, In o [OAddNum; OMul; OSub; ODiv; OMax; OMin] -> l <> [] -> Forall (to KNum KNum) l -> sig o [] KNum l KNum none
| sig_add_str : forall l, l <> [] -> Forall (to KStr KStr) l -> sig OAddStr [] KStr l KStr none
| sig_add_tab : forall fl ws opts l, In (ws, opts) [([], []); (["cols"], ["cols"]); (["union"], []); (["intersect"], ["intersect"]);
    (["cols"; "union"], ["cols"]); (["cols"; "intersect"], ["cols"; "intersect"])]%string -> flags ws fl ->
    l <> [] -> Forall (to KTab KTab) l -> sig OAddTab fl KTab l KTab (opted opts)
| sig_round : forall o, In o [OCeil; OFloor] -> sig o [] KNum [] KNum none
| sig_finite : sig OIsFinite [] KNum [] KBool none
| sig_root : forall a, to KNum KNum a -> sig ORoot [] KNum [a] KNum none
(** comparisons *)
| sig_cmp : forall o t a, In (o, t) [(OCmpNil, KNil); (OCmpBool, KBool); (OCmpNum, KNum); (OCmpStr, KStr); (OCmpOrd, key_of TOrd)] -> to t t a ->
    sig o [] t [a] (key_of TOrd) none
| sig_eq : forall o t a, In (o, t) [(OEqNil, KNil); (OEqBool, KBool); (OEqNum, KNum); (OEqStr, KStr); (OEqOrd, key_of TOrd)] -> to t t a -> sig o [] t [a] KBool none
| sig_cmp_tuple : forall t n a, tuple t -> width t n -> ready (InjTupleCmp n) t (key_of TOrd) -> to t t a -> sig OCmp [] t [a] (key_of TOrd) none
| sig_eq_tuple : forall t n a, tuple t -> width t n -> ready (InjTupleEq n) t KBool -> to t t a -> sig OEq [] t [a] KBool none
(** diagnostics *)
| sig_benchmark : forall t a, from t a -> sig OBenchmark [] t [a] KTab none
| sig_typify : forall t l fl a, In l [[]; ["verbose"%string]] -> flags l fl -> from t a -> sig OTypify fl t [a] KStr (opted l)
(** files *)
| sig_ls_tab : sig OLsTab [] KTab [] KTab none
| sig_ls : forall t, sig OLs [] t [] KTab none
| sig_ls_path : forall t a, to KNil KStr a -> sig OLs [] t [a] KTab none
| sig_open : forall t a, to t KStr a -> sig OOpen [] t [a] KTab (typed_as KTab)
| sig_open_as : forall t a f u, named f = Some u -> In u [TTab; TStr] -> to t KStr a -> sig OOpen [f] t [a] (key_of u) (typed_as (key_of u))
| sig_save : forall t a, t <> KTabRow -> to t KStr a -> sig OSave [] t [a] t none
(** logic *)
| sig_bools : forall o t l, In o [OAnd; OOr] -> l <> [] -> Forall (to t KBool) l -> sig o [] t l KBool none
| sig_if : forall t u l, ifs t u l -> sig OIf [] t l u none
| sig_not : sig ONot [] KBool [] KBool none
(** tables *)
| sig_append : forall fl l, l <> [] -> Forall (from KTabRow) l -> length fl <= length l ->
    sig OAppend fl KTab l KTab (Detail (map Some fl ++ repeat None (length l - length fl)) None None)
| sig_append_row : forall l, Forall (from KTab) l -> sig OAppendRow [] KTab l KTab none
| sig_dedup_tab : forall l, Forall (to KNil KStr) l -> sig ODedupTab [] KTab l KTab none
| sig_columns : forall o l, In o [OGrp; OSort] -> l <> [] -> Forall (to KNil KStr) l -> sig o [] KTab l KTab none
| sig_pick : forall t l fl opts, In opts [[]; ["add"]; ["trail"]; ["add"; "trail"]]%string -> flags opts fl -> l <> [] -> Forall (to KNil KStr) l -> sig OPick fl t l KTab (opted opts)
| sig_filter_cols : forall fl a, flags ["cols"%string] fl -> to KStr KBool a -> sig OFilterTab fl KTab [a] KTab (opted ["cols"%string])
| sig_filter_rows : forall a, to KTabRow KBool a -> sig OFilterTab [] KTab [a] KTab none
| sig_filter_col : forall fl c a, ~ flags ["cols"%string] fl -> given fl a -> to KNil KStr c -> sh_out a = KBool -> sig OFilterTab fl KTab [c; a] KTab (typed_as (sh_in a))
| sig_fold : forall u s a, to KNil u s -> to u u a -> sig OFold [] KTab [s; a] u none
| sig_fold_while : forall u s p a, to KNil u s -> to u KBool p -> to u u a -> sig OFoldWhile [] KTab [s; p; a] u none
| sig_by : forall o a, In o [OGrpBy; OSortBy] -> from KTabRow a -> ready InjCmp (sh_out a) (key_of TOrd) -> sig o [] KTab [a] KTab none
| sig_map_force : forall fl c a, flags ["force"%string] fl -> to KNil KStr c -> from KNil a -> sig OMap fl KTab [c; a] KTab (Detail [Some (lit "force")] (Some KNil) None)
| sig_map : forall fl c a, ~ flags ["force"%string] fl -> given fl a -> to KNil KStr c -> sig OMap fl KTab [c; a] KTab (typed_as (sh_in a))
| sig_ren : forall l, rens l -> sig ORen [] KTab l KTab none
| sig_ren_with : forall fl r a, given fl a -> to KNil KNum r -> sh_out a = KStr -> sig ORenWith fl KTab [r; a] KTab (typed_as (sh_in a))
| sig_rev_tab : forall l fl, In l [[]; ["cols"%string]] -> flags l fl -> sig ORevTab fl KTab [] KTab (opted l)
| sig_count_tab : forall o a, In o [OSkipTab; OTakeTab] -> to KTab KNum a -> sig o [] KTab [a] KTab none
| sig_nth_tab : forall n a, to KTab KNum n -> from KTabRow a -> sig ONthTab [] KTab [n; a] (sh_out a) none
| sig_len_tab : forall l fl, In l [[]; ["cols"%string]] -> flags l fl -> sig OLenTab fl KTab [] KNum (opted l)
| sig_table : forall t l, Forall (to t KStr) l -> sig OTable [] t l KTab none
| sig_range_to : forall a, to KNum KNum a -> sig ORange [] KNum [a] KTab none
| sig_range : forall t a b, to t KNum a -> to t KNum b -> sig ORange [] t [a; b] KTab none
(** strings *)
| sig_str : forall o, In o [ODedupStr; ORevStr; OToStrStr] -> sig o [] KStr [] KStr none
| sig_filter_str : forall a, to KStr KBool a -> sig OFilterStr [] KStr [a] KStr none
| sig_count_str : forall o a, In o [OSkipStr; OTakeStr; ONthStr] -> to KStr KNum a -> sig o [] KStr [a] KStr none
| sig_len_str : sig OLenStr [] KStr [] KNum none
| sig_to_str_bool : sig OToStrBool [] KBool [] KStr none
| sig_to_str_num : sig OToStrNum [] KNum [] KStr none
| sig_to_str_format : forall a x, to KNum KStr a -> sh_text a = Some x -> format x = true -> sig OToStrNum [] KNum [a] KStr none
| sig_to_str : forall t, sig OToStr [] t [] KStr none
(** the pipeline, rows and structures *)
| sig_in : forall t a, from t a -> sig OIn [] t [a] (sh_out a) none
| sig_let : forall t l, Forall (from t) l -> sig OLet [] t l t none
| sig_get_default : forall c d, to KNil KStr c -> from KNil d -> sig OGetRow [] KTabRow [c; d] (sh_out d) none
| sig_get_flag : forall c f u, to KNil KStr c -> named f = Some u -> sig OGetRow [f] KTabRow [c] (key_of u) (typed_as (key_of u))
| sig_get_want : forall c u, to KNil KStr c -> want = Some u -> sig OGetRow [] KTabRow [c] u (typed_as u)
| sig_get : forall t a x i u, from t a -> sh_text a = Some x -> field_of t x i u -> sig OGet [] t [a] (key_of u) (Detail [] None (Some i))
| sig_dot_row : forall t a c u, to t KTabRow a -> to KNil KStr c -> want = Some u -> sig ODot [] t [a; c] u (typed_as u)
| sig_dot : forall t a f x i u, from t a -> from KNil f -> sh_out a <> KTabRow -> sh_text f = Some x -> field_of (sh_out a) x i u ->
    sig ODot [] t [a; f] (key_of u) (Detail [] None (Some i))
| sig_rand : forall t l, length l <= 2 -> Forall (to t KNum) l -> sig ORand [] t l KNum none
| sig_rand_tab : forall t l, length l = 3 -> Forall (to t KNum) l -> sig ORand [] t l KTab none
| sig_tuple : forall t l, 2 <= length l -> Forall (from t) l -> sig OTuple [] t l (KDef (tuple_name (map (fun a => rep (sh_out a)) l))) none
| sig_init : forall d v fs t l, fields_of d v fs -> Forall2 (fun f a => to t (key_of (snd f)) a) fs l -> sig (OInit d v) [] t l (KDef (td_name d)) none.
End Sig.

Section Uses.
Variables (P : Type) (g : graph).
Notation comp := (comp P binding cparam).
Implicit Types c : comp.

(** The text of a string that is written out. *)
Definition written_text (h : hold) (x : option str) : Prop :=
  match h with
  | HLit n KStr => (exists t, node g n = Some (NIdent t) /\ x = Some (tg_str t)) \/ ((forall t, node g n <> Some (NIdent t)) /\ x = Some [10%N])
  | _ => x = None
  end.
Definition shaped (a : argument) (s : shape) : Prop := sh_in s = ar_in a /\ sh_out s = ar_out a /\ written_text (ar_hold a) (sh_text s).

(** [a] is the argument written at [n]. *)
Definition used c (n : nat) (a : argument) : Prop := exists l, is_argument g c n l a.
(** [o] is the last block of the expression [e]; [b] comes after [o]. *)
Definition last_block (e o : nat) : Prop := exists x l, node g e = Some (NExpr x) /\ children g e = l ++ [o].
Definition next_block (o b : nat) : Prop := exists e x l r, node g e = Some (NExpr x) /\ children g e = l ++ o :: b :: r.
(** The variable written at [n], an argument of [o], is introduced in the block after [o], if there is one, to be set by this intrinsic. *)
Definition makes c (n : nat) (t : ty) (v : ty * option nat) : Prop :=
  exists m x o y, stands g c n m /\ node g m = Some (NVar x) /\ node g o = Some (NOp y) /\ In m (children g o) /\
  (((exists e, last_block e o) /\ v = (t, None)) \/
   exists b u s, next_block o b /\ v = (u, Some s) /\ declared c b (tg_str x) (Locals.EVar u s)).
(** It is part of something. *)
Definition placed (a : argument) : Prop := exists o, In (ar_node a) (children g o).
(** The argument at [n] is to see [$row]. *)
Definition row c (n : nat) (v : ty * option nat) : Prop :=
  exists u s, v = (u, Some s) /\ declared c n (lit "row") (Locals.EVar u s).
(** Values and the variables for them, and perhaps one for the input *)
Inductive binds (rep : tkey -> ty) c (t : tkey) : list nat -> list argument -> list (ty * option nat) -> Prop :=
| binds_end : binds rep c t [] [] []
| binds_input : forall n v, makes c n (rep t) v -> binds rep c t [n] [] [v]
| binds_one : forall n m a v ns l vs, used c n a -> makes c m (rep (ar_out a)) v -> binds rep c t ns l vs -> binds rep c t (n :: m :: ns) (a :: l) (v :: vs).
(** How the arguments that are written are used.  Where nothing says what an argument is given, that has to be known. *)
Definition uses rep c (o : op) (fl : list str) (t : tkey) (ns : list nat) (l : list argument) (vs : list (ty * option nat)) : Prop :=
  match o with
  | OLet => binds rep c t ns l vs
  | OFold => exists n m v, ns = [n; m] /\ vs = [v] /\ Forall2 (used c) ns l /\ row c m v /\ forall a b, l = [a; b] -> placed a
  | OFoldWhile => exists n m k v w, ns = [n; m; k] /\ vs = [v; w] /\ Forall2 (used c) ns l /\ row c m v /\ row c k w
  | OMap => exists n m v, ns = [n; m] /\ vs = [v] /\ Forall2 (used c) ns l /\ row c m v /\
      (forall a b, l = [a; b] -> placed a) /\ (fl = [] -> forall a b, l = [a; b] -> typed c m TyGraph.In_ (ar_in b))
  | OFilterTab | ORenWith => vs = [] /\ Forall2 (used c) ns l /\
      (fl = [] -> forall n m a b, ns = [n; m] -> l = [a; b] -> typed c m TyGraph.In_ (ar_in b))
  | _ => vs = [] /\ Forall2 (used c) ns l
  end.
End Uses.

(** What code that is injected comes to. *)
Definition ready_in (inject : injected -> tkey -> tkey + cerr) (i : injected) (t u : tkey) : Prop := inject i t = inl u.
(** The type that is wanted of a block: its own, that of the input of the next, or that of the output of the expression. *)
Definition wants {P} (g : graph) (c : comp P binding cparam) (k : nat) (u : tkey) : Prop :=
  typed c k TyGraph.Out_ u \/
  (forall v, ~ typed c k TyGraph.Out_ v) /\
  ((exists b, next_block g k b /\ typed c b TyGraph.In_ u) \/ (exists e, last_block g e k /\ typed c e TyGraph.Out_ u)).

(** The block [k] of [o], with these flags and arguments, compiles to this code and returns a [u]. *)
Definition compiles g rep types format inject (c : comp code binding cparam) (k : nat) (o : op) (fl : list str) (t : tkey) (ns : list nat) (u : tkey) (x : code) : Prop :=
  cd_op x = o /\ exists w l d,
  Forall2 (shaped g) (cd_args x) l /\ uses code g rep c o fl t ns (cd_args x) (cd_vars x) /\
  (forall v, w = Some v -> wants g c k v) /\
  sig rep (type_flag types) format (ready_in inject) w o fl t l u d /\
  cd_opts x = de_opts d /\ cd_ty x = de_ty d /\ cd_field x = de_field d.
(** The texts of the flags of a block. *)
Definition flag_texts (g : graph) (k : nat) (fl : list str) : Prop :=
  Forall2 (fun n f => exists t, node g n = Some (NFlag t) /\ f = tg_str t) (firstn 256 (flags_below g k)) fl.

(** The intrinsic at this command compiled so at some point on the way to [c]. *)
Definition takes g rep types format inject (c : comp code binding cparam) (cmd : nat) (t u : tkey) (x : code) : Prop :=
  exists c0 b key op f o fl, grows c0 c /\ at_ease c0 /\ In (key, cmd) (keyed g b) /\ node g cmd = Some (NIntrinsic op f) /\ op_of f = Some o /\ flag_texts g b fl /\
  compiles g rep types format (inject c0) c0 b o fl t (firstn 256 (args_below g b)) u x.

(** The constructor of tuples is given no flags (it takes none, tuple.rs). *)
Definition plain_tuples (g : graph) : Prop :=
  forall o k cmd op f, In (k, cmd) (keyed g o) -> node g cmd = Some (NIntrinsic op f) -> op_of f = Some OTuple -> flags_below g o = [].
