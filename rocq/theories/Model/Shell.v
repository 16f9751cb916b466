(** The terminal shell: history, line editor, completions, outputs, tabs and the event cycle. *)
From Coq Require Import String List ZArith NArith Bool Arith.
From Verif Require Import Model.Base Model.Utf.
Import ListNotations.
Set Implicit Arguments.

(** ** ogma-shell/interface/history.rs *)

(** history.rs:1 [LIM] *)
Definition history_lim : nat := 100.

(** history.rs:3-6 [History] *)
Record history := History { h_items : list str; h_idx : option nat }.

(** history.rs:9-14 *)
Definition history_new : history := History [] None.

(** history.rs:16-18 [current] *)
Definition history_current (h : history) : option str :=
  match h_idx h with Some i => nth_error (h_items h) i | None => None end.

(** history.rs:20-26 [back] *)
Definition history_back (h : history) : history :=
  History (h_items h)
    (match h_idx h with
     | Some 0 => None
     | Some x => Some (x - 1)
     | None => Some (length (h_items h) - 1)
     end).

(** history.rs:28-37 [fwd] *)
Definition history_fwd (h : history) : history :=
  let l := length (h_items h) - 1 in
  History (h_items h)
    (match h_idx h with
     | Some x => if Nat.eqb x l then None else Some (x + 1)
     | None => Some 0
     end).

(** history.rs:40-46 [add]: drop from the front while at the limit, then push. *)
Fixpoint history_trim (items : list str) : list str :=
  match items with
  | [] => []
  | _ :: rest => if Nat.leb history_lim (length items) then history_trim rest else items
  end.
Definition history_add (line : str) (h : history) : history :=
  History (history_trim (h_items h) ++ [line]) None.

(** ** ogma-shell/interface/input.rs *)

(** input.rs:1-5 [Mvmt] *)
Inductive mvmt := Ch (n : nat) | Word.

(** input.rs:7-11 [InputBuffer].  The [buf_changed] flag only drives redrawing and is left out. *)
Record input_buffer := InputBuffer { ib_buf : str; ib_pos : nat }.

(** input.rs:14-20, 22-26 [new], [clear] *)
Definition input_new : input_buffer := InputBuffer [] 0.
Definition input_clear (_ : input_buffer) : input_buffer := InputBuffer [] 0.

(** input.rs:43-45 [buf_pos]: bytes before the cursor; slicing beyond the end panics. *)
Definition input_buf_pos (b : input_buffer) : res nat :=
  if Nat.leb (ib_pos b) (length (ib_buf b)) then Ok (byte_len (firstn (ib_pos b) (ib_buf b))) else Panic.

(** input.rs:52-56 [insert]; [Vec::insert] panics beyond the end. *)
Definition input_insert (ch : N) (b : input_buffer) : res input_buffer :=
  if Nat.leb (ib_pos b) (length (ib_buf b))
  then Ok (InputBuffer (firstn (ib_pos b) (ib_buf b) ++ ch :: skipn (ib_pos b) (ib_buf b)) (ib_pos b + 1))
  else Panic.

(** input.rs:58-62 [insert_str] *)
Fixpoint input_insert_str (s : str) (b : input_buffer) : res input_buffer :=
  match s with
  | [] => Ok b
  | c :: s => let? b := input_insert c b in input_insert_str s b
  end.

(** [Vec::remove]: panics unless the index is in range. *)
Definition vec_remove {A} (i : nat) (l : list A) : res (list A) :=
  if Nat.ltb i (length l) then Ok (firstn i l ++ skipn (S i) l) else Panic.

(** input.rs:65-71 [backspace] *)
Definition input_backspace (b : input_buffer) : res input_buffer :=
  match ib_pos b with
  | 0 => Ok b
  | S p => let? buf := vec_remove p (ib_buf b) in Ok (InputBuffer buf p)
  end.

(** input.rs:74-79 [delete] *)
Definition input_delete (b : input_buffer) : res input_buffer :=
  if Nat.ltb (ib_pos b) (length (ib_buf b))
  then let? buf := vec_remove (ib_pos b) (ib_buf b) in Ok (InputBuffer buf (ib_pos b))
  else Ok b.

(** input.rs:81-83 [move_start] *)
Definition input_move_start (b : input_buffer) : input_buffer := InputBuffer (ib_buf b) 0.

Section Editor.
  (** [char::is_alphanumeric], a Unicode table. *)
  Variable alnum : N -> bool.

  (** input.rs:106-118 [mv_magnitude]: letters, digits, - and _ are word characters. *)
  Definition word_char (c : N) : bool := alnum c || (c =? 45)%N || (c =? 95)%N.
  Fixpoint word_count (seen : bool) (cs : str) : nat :=
    match cs with
    | [] => 0
    | c :: cs =>
        let b := word_char c in
        let seen := seen || b in
        if Bool.eqb seen b then S (word_count seen cs) else 0
    end.
  Definition mv_magnitude (by_ : mvmt) (cs : str) : nat :=
    match by_ with Ch n => n | Word => word_count false cs end.

  (** input.rs:85-88 [move_left] *)
  Definition input_move_left (by_ : mvmt) (b : input_buffer) : res input_buffer :=
    if Nat.leb (ib_pos b) (length (ib_buf b))
    then Ok (InputBuffer (ib_buf b) (ib_pos b - mv_magnitude by_ (rev (firstn (ib_pos b) (ib_buf b)))))
    else Panic.

  (** input.rs:90-93 [move_right] *)
  Definition input_move_right (by_ : mvmt) (b : input_buffer) : res input_buffer :=
    if Nat.leb (ib_pos b) (length (ib_buf b))
    then Ok (InputBuffer (ib_buf b)
               (Nat.min (ib_pos b + mv_magnitude by_ (skipn (ib_pos b) (ib_buf b))) (length (ib_buf b))))
    else Panic.
End Editor.

(** ** ogma-shell/interface/completions.rs *)

(** completions.rs:160-163 [Package]; a completion is its text. *)
Record package := Package { pk_changeset : N; pk_items : list str }.

(** completions.rs:11-25 [Completions]; the channels are the list of requests sent and the packages
    handed to [recv]. *)
Record completions := Completions {
  c_changeset : N;
  c_items : list str;
  c_highlighted : option nat;
  c_replace : str;
  c_start : nat;
  c_ins_len : nat
}.

(** completions.rs:28-46 *)
Definition completions_new : completions := Completions 0 [] None [] 0 0.

(** completions.rs:83-86 [reset] *)
Definition completions_reset (c : completions) : completions :=
  Completions (c_changeset c) [] None (c_replace c) (c_start c) (c_ins_len c).

(** completions.rs:142-158 [word_start]; separators are space, tab, CR, LF, dot, slash, backslash. *)
Definition splits_word (c : N) : bool :=
  existsb (N.eqb c) [32; 9; 13; 10; 46; 47; 92]%N.
Fixpoint word_start_loop (before : nat) (cs : list (nat * N)) (pos : nat) : nat :=
  match cs with
  | [] => pos
  | (idx, ch) :: cs =>
      if Nat.ltb before idx then pos
      else word_start_loop before cs (if splits_word ch then idx + len_utf8 ch else pos)
  end.
Definition word_start (s : str) (before : nat) : nat :=
  Nat.min (word_start_loop before (char_indices 0 s) 0) before.

(** completions.rs:165-190 [Request] *)
Record request := Request { rq_changeset : N; rq_input : str; rq_cursor : nat; rq_word : nat }.

(** completions.rs:48-68 [request]; also gives the request sent. *)
Definition completions_request (b : input_buffer) (c : completions) : res (completions * request) :=
  let cs := ((c_changeset c + 1) mod 2 ^ 128)%N in
  let input := ib_buf b in
  let? cursor := input_buf_pos b in
  let word := word_start input cursor in
  let? replace := slice_bytes word cursor input in
  let ins := length replace in
  Ok (Completions cs [] None replace (ib_pos b - ins) ins, Request cs input cursor word).

(** completions.rs:71-80 [recv] on the packages that have arrived. *)
Definition completions_recv (pkgs : list package) (c : completions) : bool * completions :=
  let mine := filter (fun p => N.eqb (pk_changeset p) (c_changeset c)) pkgs in
  (negb (match mine with [] => true | _ => false end),
   Completions (c_changeset c) (c_items c ++ flat_map pk_items mine) (c_highlighted c)
     (c_replace c) (c_start c) (c_ins_len c)).

(** completions.rs:88-90 [has] *)
Definition completions_has (c : completions) : bool := match c_items c with [] => false | _ => true end.

(** completions.rs:136-140 [cmpl]; 129-134 [replace_with]: the text to insert. *)
Definition shown (c : completions) : str :=
  match c_highlighted c with
  | Some i => match nth_error (c_items c) i with Some s => s | None => c_replace c end
  | None => c_replace c
  end.
Definition replace_with (c : completions) : completions * (nat * str) :=
  (Completions (c_changeset c) (c_items c) (c_highlighted c) (c_replace c) (c_start c) (length (shown c)),
   (c_ins_len c, shown c)).
Definition with_highlight (h : option nat) (c : completions) : completions :=
  Completions (c_changeset c) (c_items c) h (c_replace c) (c_start c) (c_ins_len c).

(** completions.rs:107-117 [highlight_next] *)
Definition highlight_next (c : completions) : completions * (nat * str) :=
  let l := length (c_items c) - 1 in
  replace_with (with_highlight
    (match c_highlighted c with
     | Some i => if Nat.eqb i l then None else Some (i + 1)
     | None => Some 0
     end) c).

(** completions.rs:120-127 [highlight_prev] *)
Definition highlight_prev (c : completions) : completions * (nat * str) :=
  replace_with (with_highlight
    (match c_highlighted c with
     | Some 0 => None
     | Some x => Some (x - 1)
     | None => Some (length (c_items c) - 1)
     end) c).

(** ** ogma-shell/interface/outputs.rs *)

(** outputs.rs:5-17 [Outputs]: each output is its text and the height of its rendering. *)
Record outputs := Outputs {
  o_items : list (str * nat);
  o_limit : nat;
  o_width : nat;
  o_scroll : nat
}.

(** outputs.rs:20-27 *)
Definition outputs_new (width limit : nat) : outputs := Outputs [] limit width 0.

(** outputs.rs:58-60 [height] *)
Definition outputs_height (o : outputs) : nat := fold_right Nat.add 0 (map snd (o_items o)).

(** [as u16], and [u16::saturating_add] *)
Definition as_u16 (n : nat) : nat := N.to_nat (N.of_nat n mod 65536).
Definition sat_u16 (n : nat) : nat := N.to_nat (N.min (N.of_nat n) 65535).

Section Rendering.
  (** mod.rs:869 [convert_coloured_str]: the height of a text at a width and theme. *)
  Variable height_of : str -> nat -> nat -> nat.

  (** outputs.rs:38-47 [add] *)
  Definition outputs_add (value : str) (theme : nat) (o : outputs) : outputs :=
    let w := o_width o - 1 in
    let items := o_items o ++ [(value, height_of value w theme)] in
    Outputs (if Nat.ltb (o_limit o) (length items) then tl items else items)
      (o_limit o) (o_width o) 0.

  (** outputs.rs:49-56 [update_width] *)
  Definition outputs_update_width (width theme : nat) (o : outputs) : outputs :=
    Outputs (map (fun it => (fst it, height_of (fst it) (width - 1) theme)) (o_items o))
      (o_limit o) width 0.
End Rendering.

(** outputs.rs:70-88 [scroll]; a number of lines beyond u16 panics. *)
Definition outputs_scroll (lines : Z) (o : outputs) : res outputs :=
  match (lines ?= 0)%Z with
  | Eq => Ok o
  | Gt => if (lines <=? 65535)%Z then
            let h := as_u16 (outputs_height o - 1) in
            Ok (Outputs (o_items o) (o_limit o) (o_width o)
                  (Nat.min (sat_u16 (o_scroll o + Z.to_nat lines)) h))
          else Panic
  | Lt => if (- lines <=? 65535)%Z then
            Ok (Outputs (o_items o) (o_limit o) (o_width o) (o_scroll o - Z.to_nat (- lines)))
          else Panic
  end.

(** outputs.rs:116-144 [scroll_location]: the vertical extent of the bar, as offset within the area
    and height.  [bar] and [off] are the results of the two floating point computations. *)
Definition scroll_location (area_height outputs_height : nat) (bar off : nat) : nat * nat :=
  if Nat.leb outputs_height 1 then (0, area_height)
  else
    let hi := Nat.max bar 1 in
    let height := if Nat.ltb area_height 1 then 1 else if Nat.ltb hi area_height then hi else area_height in
    let lim := area_height - height in
    (Nat.min off lim, height).

(** ** ogma-shell/interface/mod.rs *)

(** mod.rs:92-102 [TabState], the parts events act on. *)
Record tab_state := TabState {
  t_id : nat;
  t_input : input_buffer;
  t_outputs : outputs;
  t_completions : completions;
  t_history : history
}.
Definition set_input (i : input_buffer) (t : tab_state) : tab_state :=
  TabState (t_id t) i (t_outputs t) (t_completions t) (t_history t).
Definition set_outputs (o : outputs) (t : tab_state) : tab_state :=
  TabState (t_id t) (t_input t) o (t_completions t) (t_history t).
Definition set_completions (c : completions) (t : tab_state) : tab_state :=
  TabState (t_id t) (t_input t) (t_outputs t) c (t_history t).

(** mod.rs:137-144 [TermState]; ids of tabs are random there, numbered here. *)
Record term_state := TermState {
  s_tabs : list tab_state;
  s_selected : nat;
  s_help : bool;
  s_cmpls_drawn : bool;
  s_theme : nat;
  s_next_id : nat
}.

(** mod.rs:32, 183-207 [OUTPUTS_LIM], [init] *)
Definition outputs_lim : nat := 100.
Definition tab_init (id width : nat) : tab_state :=
  TabState id input_new (outputs_new width outputs_lim) completions_new history_new.

(** mod.rs:155-157 [tab_state]: panics if there is no selected tab. *)
Definition sel_tab (s : term_state) : res tab_state :=
  match nth_error (s_tabs s) (s_selected s) with Some t => Ok t | None => Panic end.
Definition with_tabs (tabs : list tab_state) (sel : nat) (s : term_state) : term_state :=
  TermState tabs sel (s_help s) (s_cmpls_drawn s) (s_theme s) (s_next_id s).
Fixpoint set_at {A} (i : nat) (x : A) (l : list A) : list A :=
  match i, l with
  | 0, _ :: l => x :: l
  | S i, y :: l => y :: set_at i x l
  | _, [] => []
  end.
Definition put_tab (t : tab_state) (s : term_state) : term_state :=
  with_tabs (set_at (s_selected s) t (s_tabs s)) (s_selected s) s.
Definition on_tab (f : tab_state -> res tab_state) (s : term_state) : res term_state :=
  let? t := sel_tab s in
  let? t := f t in
  Ok (put_tab t s).

(** mod.rs:159-163 [new_tab] *)
Definition new_tab (s : term_state) : term_state :=
  let tabs := s_tabs s ++ [tab_init (s_next_id s) 20] in
  TermState tabs (length tabs - 1) (s_help s) (s_cmpls_drawn s) (s_theme s) (S (s_next_id s)).

(** mod.rs:165-170 [switch_tab] *)
Definition switch_tab (s : term_state) : term_state :=
  let sel := s_selected s + 1 in
  with_tabs (s_tabs s) (if Nat.leb (length (s_tabs s)) sel then 0 else sel) s.

(** mod.rs:172-177 [quit_tab] *)
Definition quit_tab (s : term_state) : term_state :=
  let i := s_selected s in
  switch_tab (if Nat.ltb i (length (s_tabs s))
              then with_tabs (firstn i (s_tabs s) ++ skipn (S i) (s_tabs s)) i s
              else s).

(** mod.rs:82-89 [EventResult], with its derived order. *)
Inductive event_result := RNone | RRedraw | RInputChanged | REval | RBreak.
Definition result_rank (r : event_result) : nat :=
  match r with RNone => 0 | RRedraw => 1 | RInputChanged => 2 | REval => 3 | RBreak => 4 end.
Definition result_max (a b : event_result) : event_result :=
  if Nat.leb (result_rank a) (result_rank b) then b else a.

(** mod.rs:300-478: the keys [process_event] distinguishes, by what they are bound to. *)
Inductive event :=
| EvHelp | EvQuit | EvNewTab | EvSwitch | EvTheme | EvEnter
| EvScroll (lines : Z)          (* shift+up/down: 5 lines; page up/down: 25 *)
| EvDown | EvUp | EvEsc
| EvCursor (word left : bool)
| EvBackspace | EvDelete | EvNewline
| EvChar (c : N)
| EvResize | EvOther.

Section Events.
  Variable alnum : N -> bool.

  (** mod.rs:481-491 [mv_cursor] *)
  Definition mv_cursor (word left : bool) (t : tab_state) : res tab_state :=
    let m := if word then Word else Ch 1 in
    let? i := if left then input_move_left alnum m (t_input t) else input_move_right alnum m (t_input t) in
    Ok (set_completions (completions_reset (t_completions t)) (set_input i t)).

  (** mod.rs:833-846 [mv_history] *)
  Definition mv_history (back : bool) (t : tab_state) : res tab_state :=
    let h := if back then history_back (t_history t) else history_fwd (t_history t) in
    let? i := input_insert_str (match history_current h with Some s => s | None => [] end)
                (input_clear (t_input t)) in
    Ok (TabState (t_id t) i (t_outputs t) (completions_reset (t_completions t)) h).

  (** mod.rs:848-866 [mv_completions] *)
  Fixpoint delete_n (n : nat) (b : input_buffer) : res input_buffer :=
    match n with 0 => Ok b | S n => let? b := input_delete b in delete_n n b end.
  Definition mv_completions (next : bool) (t : tab_state) : res tab_state :=
    let start := c_start (t_completions t) in
    let '(c, (len, with_)) := if next then highlight_next (t_completions t) else highlight_prev (t_completions t) in
    let? i := input_move_right alnum (Ch start) (input_move_start (t_input t)) in
    let? i := delete_n len i in
    let? i := input_insert_str with_ i in
    Ok (set_completions c (set_input i t)).

  (** mod.rs:296-478 [process_event] *)
  Definition process_event (ev : event) (s : term_state) : res (event_result * term_state) :=
    let? cur := sel_tab s in
    let has := completions_has (t_completions cur) in
    let edit f := (let? s := on_tab (fun t => let? i := f (t_input t) in Ok (set_input i t)) s in
                   Ok (RInputChanged, s)) in
    let redraw f := (let? s := on_tab f s in Ok (RRedraw, s)) in
    match ev with
    | EvHelp => Ok (RRedraw, TermState (s_tabs s) (s_selected s) (negb (s_help s)) (s_cmpls_drawn s) (s_theme s) (s_next_id s))
    | EvQuit => let s := quit_tab s in
                Ok (if Nat.eqb (length (s_tabs s)) 0 then RBreak else RRedraw, s)
    | EvNewTab => Ok (RRedraw, new_tab s)
    | EvSwitch => Ok (RRedraw, switch_tab s)
    | EvTheme => Ok (RRedraw, TermState (s_tabs s) (s_selected s) (s_help s) (s_cmpls_drawn s)
                       ((s_theme s + 1) mod 256) (s_next_id s))
    | EvEnter => Ok (REval, s)
    | EvScroll n => redraw (fun t => let? o := outputs_scroll n (t_outputs t) in Ok (set_outputs o t))
    | EvDown => if has then redraw (mv_completions true) else redraw (mv_history false)
    | EvUp => if has then redraw (mv_completions false) else redraw (mv_history true)
    | EvEsc => if has then redraw (fun t => Ok (set_completions (completions_reset (t_completions t)) t))
               else Ok (RNone, s)
    | EvCursor w l => redraw (mv_cursor w l)
    | EvBackspace => edit input_backspace
    | EvDelete => edit input_delete
    | EvNewline => edit (input_insert 10)
    | EvChar c => edit (input_insert c)
    | EvResize => Ok (RRedraw, s)
    | EvOther => Ok (RNone, s)
    end.

  (** mod.rs:262-266: all queued events, keeping the largest result. *)
  Fixpoint process_events (evs : list event) (acc : event_result) (s : term_state)
      : res (event_result * term_state) :=
    match evs with
    | [] => Ok (acc, s)
    | ev :: evs =>
        let? rs := process_event ev s in
        process_events evs (result_max acc (fst rs)) (snd rs)
    end.

  Variable height_of : str -> nat -> nat -> nat.

  (** mod.rs:669-739 [eval]: net effect on the state; [run] is the code called with the text and the
      tab, giving an output to add if any.  The progress message shown meanwhile is gone at the end;
      events arriving meanwhile are dropped. *)
  Definition eval_enter (run : str -> nat -> option str) (s : term_state) : res (term_state * str) :=
    let? t := sel_tab s in
    let line := ib_buf (t_input t) in
    let t := TabState (t_id t) (input_clear (t_input t)) (t_outputs t)
               (completions_reset (t_completions t)) (history_add line (t_history t)) in
    let t := match run line (t_id t) with
             | Some v => set_outputs (outputs_add height_of v (s_theme s) (t_outputs t)) t
             | None => t
             end in
    Ok (put_tab t s, line).

  (** What a cycle does besides changing the state. *)
  Inductive effect := FxNone | FxRequest (r : request) | FxRun (line : str).

  (** mod.rs:249-294 [events_cycle], without drawing and sleeping.  [pkgs] are the completion
      packages that have arrived.  The boolean tells the loop to stop. *)
  Definition events_cycle (run : str -> nat -> option str) (evs : list event) (pkgs : list package)
      (s : term_state) : res (bool * effect * term_state) :=
    let? rs := process_events evs RNone s in
    let (r, s) := rs in
    match r with
    | RBreak => Ok (true, FxNone, s)
    | REval => let? se := eval_enter run s in
               let (s, line) := se in Ok (false, FxRun line, s)
    | RInputChanged =>
        let s := TermState (s_tabs s) (s_selected s) (s_help s) false (s_theme s) (s_next_id s) in
        let? t := sel_tab s in
        let? cr := completions_request (t_input t) (t_completions t) in
        let (c, rq) := cr in
        Ok (false, FxRequest rq, put_tab (set_completions c t) s)
    | RRedraw => Ok (false, FxNone, s)
    | RNone =>
        let? t := sel_tab s in
        if completions_has (t_completions t) && negb (s_cmpls_drawn s)
        then Ok (false, FxNone, TermState (s_tabs s) (s_selected s) (s_help s) true (s_theme s) (s_next_id s))
        else let (_, c) := completions_recv pkgs (t_completions t) in
             Ok (false, FxNone, put_tab (set_completions c t) s)
    end.
End Events.
