(** What the line editor, the history, completions, outputs, and tabs are meant to do. *)
From Coq Require Import List ZArith NArith Bool Arith.
From Verif Require Import Model.Base Model.Shell.
Import ListNotations.

(** The last [n] elements. *)
Definition lastn {A} (n : nat) (l : list A) : list A := skipn (length l - n) l.

(** ** History *)
Inductive history_op := HAdd (line : str) | HBack | HFwd.

Definition history_step (h : history) (op : history_op) : history :=
  match op with HAdd l => history_add l h | HBack => history_back h | HFwd => history_fwd h end.

(** Lines entered in a sequence of operations. *)
Fixpoint entered (ops : list history_op) : list str :=
  match ops with
  | [] => []
  | HAdd l :: ops => l :: entered ops
  | _ :: ops => entered ops
  end.

Fixpoint iterate {A} (n : nat) (f : A -> A) (x : A) : A :=
  match n with 0 => x | S n => f (iterate n f x) end.

(** ** Editor: text before and after the cursor *)
Inductive edit_op :=
| Insert (c : N) | InsertStr (s : str) | Backspace | Delete | Start | Clear
| MoveLeft (m : mvmt) | MoveRight (m : mvmt).

(** A word jump passes separators, then one whole word. *)
Definition word_jump (wordch : N -> bool) (cs : str) (n : nat) : Prop :=
  exists gap word rest, cs = gap ++ word ++ rest /\ n = length gap + length word /\
    Forall (fun c => wordch c = false) gap /\ Forall (fun c => wordch c = true) word /\
    match rest with [] => True | c :: _ => wordch c = false /\ word <> [] end.

Definition jump (wordch : N -> bool) (m : mvmt) (cs : str) (n : nat) : Prop :=
  match m with Ch k => n = Nat.min k (length cs) | Word => word_jump wordch cs n end.

(** Text before the cursor, text after it. *)
Inductive ideal_edit (wordch : N -> bool) : edit_op -> str * str -> str * str -> Prop :=
| ie_insert c a b : ideal_edit wordch (Insert c) (a, b) (a ++ [c], b)
| ie_insert_str s a b : ideal_edit wordch (InsertStr s) (a, b) (a ++ s, b)
| ie_backspace a c b : ideal_edit wordch Backspace (a ++ [c], b) (a, b)
| ie_backspace_none b : ideal_edit wordch Backspace ([], b) ([], b)
| ie_delete a c b : ideal_edit wordch Delete (a, c :: b) (a, b)
| ie_delete_none a : ideal_edit wordch Delete (a, []) (a, [])
| ie_start a b : ideal_edit wordch Start (a, b) ([], a ++ b)
| ie_clear a b : ideal_edit wordch Clear (a, b) ([], [])
| ie_left m a1 a2 b : jump wordch m (rev (a1 ++ a2)) (length a2) ->
    ideal_edit wordch (MoveLeft m) (a1 ++ a2, b) (a1, a2 ++ b)
| ie_right m a b1 b2 : jump wordch m (b1 ++ b2) (length b1) ->
    ideal_edit wordch (MoveRight m) (a, b1 ++ b2) (a ++ b1, b2).

Inductive ideal_edits (wordch : N -> bool) : list edit_op -> str * str -> str * str -> Prop :=
| ies_nil z : ideal_edits wordch [] z z
| ies_cons op ops x y z : ideal_edit wordch op x y -> ideal_edits wordch ops y z ->
    ideal_edits wordch (op :: ops) x z.

(** The operation of the model that each edit stands for. *)
Definition edit_step (alnum : N -> bool) (op : edit_op) (b : input_buffer) : res input_buffer :=
  match op with
  | Insert c => input_insert c b
  | InsertStr s => input_insert_str s b
  | Backspace => input_backspace b
  | Delete => input_delete b
  | Start => Ok (input_move_start b)
  | Clear => Ok (input_clear b)
  | MoveLeft m => input_move_left alnum m b
  | MoveRight m => input_move_right alnum m b
  end.
Fixpoint edit_steps (alnum : N -> bool) (ops : list edit_op) (b : input_buffer) : res input_buffer :=
  match ops with
  | [] => Ok b
  | op :: ops => let? b := edit_step alnum op b in edit_steps alnum ops b
  end.

(** The buffer shows this text with the cursor between the two parts. *)
Definition shows (b : input_buffer) (z : str * str) : Prop :=
  ib_buf b = fst z ++ snd z /\ ib_pos b = length (fst z).

(** ** Completions *)

(** What ends a word for completion: white space between words, the dot of a field, the slashes of a path. *)
Definition separator (c : N) : bool :=
  match c with
  | 9 | 10 | 13 | 32 => true
  | 46 => true
  | 47 | 92 => true
  | _ => false
  end%N.

(** The word being completed: what follows the last separator before the cursor; nothing if the
    cursor stands right before a separator. *)
Definition typed_word (sep : N -> bool) (z : str * str) (word : str) : Prop :=
  exists front, fst z = front ++ word /\ Forall (fun c => sep c = false) word /\
    match snd z with
    | c :: _ => if sep c then word = [] else
                  match rev front with [] => True | d :: _ => sep d = true end
    | [] => match rev front with [] => True | d :: _ => sep d = true end
    end.

(** The completion state belongs to the text: at its start position stands what it last put there. *)
Definition in_step (c : completions) (b : input_buffer) (left mid right : str) : Prop :=
  ib_buf b = left ++ mid ++ right /\ c_start c = length left /\ c_ins_len c = length mid /\
  ib_pos b <= length (ib_buf b).

(** Events of a tab that do not touch the text otherwise than by completing. *)
Inductive cmpl_op := COpNext | COpPrev | COpCursor (word left : bool) | COpEsc | COpRecv (pkgs : list package).

Definition cmpl_step (alnum : N -> bool) (op : cmpl_op) (t : tab_state) : res tab_state :=
  match op with
  | COpNext => mv_completions alnum true t
  | COpPrev => mv_completions alnum false t
  | COpCursor w l => mv_cursor alnum w l t
  | COpEsc => Ok (set_completions (completions_reset (t_completions t)) t)
  | COpRecv pkgs => Ok (set_completions (snd (completions_recv pkgs (t_completions t))) t)
  end.
Fixpoint cmpl_steps (alnum : N -> bool) (ops : list cmpl_op) (t : tab_state) : res tab_state :=
  match ops with
  | [] => Ok t
  | op :: ops => let? t := cmpl_step alnum op t in cmpl_steps alnum ops t
  end.

(** ** Outputs *)
Inductive output_op := OAdd (v : str) (theme : nat) | OWidth (w theme : nat) | OScroll (lines : Z).

Definition output_step (height_of : str -> nat -> nat -> nat) (op : output_op) (o : outputs) : res outputs :=
  match op with
  | OAdd v th => Ok (outputs_add height_of v th o)
  | OWidth w th => Ok (outputs_update_width height_of w th o)
  | OScroll n => outputs_scroll n o
  end.
Fixpoint output_steps (height_of : str -> nat -> nat -> nat) (ops : list output_op) (o : outputs) : res outputs :=
  match ops with
  | [] => Ok o
  | op :: ops => let? o := output_step height_of op o in output_steps height_of ops o
  end.
Fixpoint written (ops : list output_op) : list str :=
  match ops with
  | [] => []
  | OAdd v _ :: ops => v :: written ops
  | _ :: ops => written ops
  end.
(** the width last set *)
Fixpoint last_width (w : nat) (ops : list output_op) : nat :=
  match ops with
  | [] => w
  | OWidth w' _ :: ops => last_width w' ops
  | _ :: ops => last_width w ops
  end.

(** ** Tabs *)

(** Number of tabs after an event. *)
Definition tabs_after (n : nat) (ev : event) : nat :=
  match ev with EvNewTab => n + 1 | EvQuit => n - 1 | _ => n end.

(** Some event arrives when no tab is left. *)
Fixpoint outlives_tabs (n : nat) (evs : list event) : bool :=
  match evs with
  | [] => false
  | ev :: evs => Nat.eqb n 0 || outlives_tabs (tabs_after n ev) evs
  end.

Definition cursor_ok (t : tab_state) : Prop := ib_pos (t_input t) <= length (ib_buf (t_input t)).

(** A state in which the shell is running. *)
Definition running (s : term_state) : Prop := s_selected s < length (s_tabs s) /\ Forall cursor_ok (s_tabs s).
Definition closed (s : term_state) : Prop := s_tabs s = [] /\ s_selected s = 0.

(** Scroll keys move by 5 or 25 lines. *)
Definition bound_key (ev : event) : Prop :=
  match ev with EvScroll n => In n [5; -5; 25; -25]%Z | _ => True end.

(** ** Words
    Characters of words: letters, digits, hyphen and underscore. *)
Definition in_word (alnum : N -> bool) (c : N) : bool := alnum c || N.eqb c 45 || N.eqb c 95.
