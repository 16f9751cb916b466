(** What help and the listing of definitions should show. *)
From Coq Require Import String List ZArith NArith Bool Arith Sorted Permutation.
From Verif Require Import Model.Base Model.Value Model.TableCrate Model.Ast Model.Registry Model.HelpList Spec.SortSpec.
Import ListNotations.
Set Implicit Arguments.

(** There is an implementation [i] of [op] for this input. *)
Definition implemented (m : impls) (op : str) (key : option ty) (i : impl) : Prop :=
  exists ks, In (op, ks) m /\ match key with Some t => In (t, i) (k_tys ks) | None => k_any ks = Some i end.

(** Names as they are shown: the op for any input is first. *)
Definition shown_name (t : ty) : str :=
  match t with
  | TNil => lit "Nil" | TBool => lit "Bool" | TNum => lit "Number" | TStr => lit "String" | TTab => lit "Table" | TTabRow => lit "TableRow"
  | TDef d => td_name d
  end.
Definition sooner (a b : option ty) : Prop :=
  match a, b with
  | None, _ => True
  | Some _, None => False
  | Some a, Some b => str_cmp (shown_name a) (shown_name b) <> Gt
  end.

(** Texts with an empty line between them *)
Definition gap_after (s : str) : str := match rev s with 10%N :: _ => [10]%N | _ => [10; 10]%N end.
Fixpoint paragraphs (l : list str) : str :=
  match l with
  | [] => []
  | [x] => x
  | x :: l => x ++ gap_after x ++ paragraphs l
  end.

(** The contract of [sort_unstable_by_key] *)
Definition unstable_contract (so : forall A : Type, (A -> A -> comparison) -> list A -> list A) : Prop :=
  forall A (cmp : A -> A -> comparison) l, Permutation l (so A cmp l) /\
    (total_preorder_on (fun x => In x l) cmp -> StronglySorted (fun a b => cmp a b <> Gt) (so A cmp l)).

(** The first block has the flag [--help]. *)
Definition asks_help (e : expr) : Prop := exists b bs f, ex_blocks e = b :: bs /\ In (TFlag f) (blk_terms b) /\ tg_str f = lit "help".
(** The op of the first block *)
Definition first_op (e : expr) (n : str) : Prop := exists b bs t, ex_blocks e = b :: bs /\ blk_op b = Ok t /\ tg_str t = n.

(** The help of an implementation, line by line.  Parameters are in groups, one line of usage for each; lines of usage after the first have one more space. *)
Definition shown_param (p : hparam) : str := match p with HRequired p | HCustom p => p | HOptional p => lit "[" ++ p ++ lit "]" | HBreak => [] end.
Fixpoint groups (ps : list hparam) : list hparam * list (list hparam) :=
  match ps with
  | [] => ([], [])
  | HBreak :: ps => let (g, gs) := groups ps in ([], g :: gs)
  | p :: ps => let (g, gs) := groups ps in (p :: g, gs)
  end.
Definition help_lines (h : help) (key : option ty) : list str :=
  let sp := if h_no_space h then [] else lit " " in
  let params := fun g => concat (map (fun p => sp ++ shown_param p) g) in
  [lit "---- Input Type: " ++ match key with Some t => shown_name t | None => lit "<any>" end ++ lit " ----"; h_desc h; []; lit "Usage:";
   lit " => " ++ h_cmd h ++ params (fst (groups (h_params h)))]
  ++ map (fun g => lit " => " ++ h_cmd h ++ sp ++ params g) (snd (groups (h_params h)))
  ++ (if h_flags h then [] else [[]; lit "Flags:"]) ++ map (fun f => lit " --" ++ fst f ++ lit ": " ++ snd f) (h_flags h)
  ++ (if h_examples h then [] else [[]; lit "Examples:"]) ++ concat (map (fun e => [lit " " ++ fst e; lit " => " ++ snd e; []]) (h_examples h)).
Definition joined (l : list str) : str := match l with [] => [] | x :: l => x ++ concat (map (fun y => 10%N :: y) l) end.
Definition shown_help (h : help) (key : option ty) : str := joined (help_lines h key).

(** A row of the listing: the code is what is written after [def ]. *)
Definition text_or_nil (t : option str) : ent := match t with Some t => EObj (VStr t) | None => ENil end.
Definition listed (cat : impl -> str) (src : defn -> str) (op : str) (key : option ty) (i : impl) (row : list ent) : Prop :=
  exists where_ line code, row = [EObj (VStr op); EObj (VStr (cat i)); text_or_nil (option_map shown_name key); EObj (VStr where_); line; text_or_nil code] /\
    match im_loc i with
    | LOgma => where_ = lit "<ogma>" /\ line = ENil
    | LShell => where_ = lit "shell" /\ line = ENil
    | LFile p l => where_ = p /\ line = ENum (num_of_Z (Z.of_N l))
    end /\
    match i, code with
    | IIntrinsic _ _, None => True
    | IDef d, Some c => forall rest, src d = lit "def " ++ rest -> c = rest
    | _, _ => False
    end.
