(** The layout of a definition file, without reference to the splitter. *)
From Coq Require Import String List ZArith NArith Bool Arith.
From Verif Require Import Model.Base Model.Parse Model.File Spec.ParseSpec.
Import ListNotations.
Set Implicit Arguments.

Section FileSpec.
  Variable k : lang.

  Definition all_white (s : str) : Prop := forall c, In c s -> white k c = true.
  Definition newlines (s : str) : N := N.of_nat (count_occ N.eq_dec s nl).
  (** nothing, or text ending with the end of a line *)
  Definition line_done (s : str) : Prop := s = [] \/ exists s', s = s' ++ [nl].
  (** nothing, or text beginning with the end of a line *)
  Definition line_over (s : str) : Prop := s = [] \/ (exists s', s = nl :: s') \/ (exists s', s = cr :: nl :: s').

  (** no line of the text is blank *)
  Definition solid (s : str) : Prop :=
    forall a l b, s = a ++ l ++ b -> line_done a -> line_over b -> exists c, In c l /\ white k c = false.

  (** [splits n b s its]: the items of [s], a text after [b]: stretches of lines without a blank line, kept apart by white text
      with at least two line ends, that is with a blank line.  With each item comes the text before it. *)
  Inductive splits : N -> str -> str -> list (str * str) -> Prop :=
  | splits_none n b g : all_white g -> splits n b g []
  | splits_item n b g it rest its :
      all_white g -> line_done g -> (n <= newlines g)%N -> solid it -> line_over rest -> splits 2 (b ++ g ++ it) rest its ->
      splits n b (g ++ it ++ rest) ((b ++ g, it) :: its).

  (** [t] is [s] without the white text around it; [a] is what came before. *)
  Definition trims (a t s : str) : Prop :=
    exists z, s = a ++ t ++ z /\ all_white a /\ all_white z /\ (t = [] -> a = []) /\
      (forall c u, t = c :: u -> white k c = false) /\ (forall c u, t = u ++ [c] -> white k c = false).
  Definition trimmed (t s : str) : Prop := exists a, trims a t s.

  (** [comments pre ds rest]: the lines of [pre], before [rest], are comments with the texts [ds]; [rest] begins with another. *)
  Inductive comments : str -> list str -> str -> Prop :=
  | comments_none rest :
      (forall l e d, rest = l ++ e -> ~ In nl l -> line_over e -> ~ trimmed (35%N :: d) l) -> comments [] [] rest
  | comments_line l e d d' pre ds rest :
      ~ In nl l -> trimmed (35%N :: d) l -> trimmed d' d -> e = [nl] \/ e = [cr; nl] \/ e = [] /\ pre = [] /\ rest = [] ->
      comments pre ds rest -> comments (l ++ e ++ pre) (d' :: ds) rest.
  (** lines of help, if any *)
  Definition help (ds : list str) (o : option str) : Prop :=
    match ds with
    | [] | [[]] => o = None
    | _ => exists d, o = Some d /\ d ++ [nl] = flat_map (fun l => l ++ [nl]) ds
    end.
  (** [e] is the end of the last line of [pre] *)
  Definition last_end (pre e rest : str) : Prop :=
    pre = [] /\ e = [] \/
    (exists p, pre = p ++ e /\ (e = [nl] /\ (forall p', p <> p' ++ [cr]) \/ e = [cr; nl] \/ e = [] /\ rest = [])).

  Definition begins (p s : str) : Prop := exists r, s = p ++ r.
  (** what may come after a name, after an op *)
  Definition name_over (s : str) : Prop := forall c s', s = c :: s' -> ~ name_char k c.
  Definition op_over (s : str) : Prop := name_over s /\ ~ begins (lit "/") s /\ ~ begins (lit "=") s /\ ~ begins (lit "::") s.
  (** an opening bracket first *)
  Definition opens (text : str) : Prop := exists a s, text = a ++ 91%N :: s /\ all_white a.
  (** The item begins as a definition but is none. *)
  Definition no_definition (it : str) : Prop :=
    exists own pre rest a code, it = pre ++ rest /\ comments pre own rest /\ trims a code rest /\ begins (lit "def") code /\
      (forall n r, code = lit "def-ty " ++ n ++ r -> name k n -> ~ name_over r) /\
      (forall n r, code = lit "def " ++ n ++ r -> In n symbols \/ names k n -> ~ op_over r).
  Definition names_it (code : str) (x : kind) : Prop :=
    match x with
    | KType n => name k n /\ exists r, code = lit "def-ty " ++ n ++ r /\ name_over r
    | KImpl n => (In n symbols \/ names k n) /\ ~ begins (lit "def-ty") code /\ exists r, code = lit "def " ++ n ++ r
    | KExpr => ~ begins (lit "def") code
    end.
  (** [it], found after the text [b], as an entry of the file *)
  Definition entry (b it : str) (own : list str) (x : kind * item) : Prop :=
    exists pre rest a, it = pre ++ rest /\ comments pre own rest /\ trims a (it_code (snd x)) rest /\
      it_line (snd x) = (newlines (b ++ pre ++ a) + 1)%N /\ names_it (it_code (snd x)) (fst x).

  Definition of_types (xs : list (kind * item)) : list (str * item) :=
    flat_map (fun x => match x with (KType n, i) => [(n, i)] | _ => [] end) xs.
  Definition of_impls (xs : list (kind * item)) : list (str * item) :=
    flat_map (fun x => match x with (KImpl n, i) => [(n, i)] | _ => [] end) xs.
  Definition of_exprs (xs : list (kind * item)) : list item :=
    flat_map (fun x => match x with (KExpr, i) => [i] | _ => [] end) xs.

  (** [docs first ds0 d0 its xs]: who gets which help: with [first], the help of the file goes to the first item. *)
  Definition docs (first : Prop) (ds0 : list str) (d0 : option str) (own : list (list str)) (xs : list (kind * item)) : Prop :=
    match own, xs with
    | d :: own, x :: xs =>
        (first -> help ds0 (it_doc (snd x)) /\ d0 = None) /\ (~ first -> help d (it_doc (snd x)) /\ help ds0 d0) /\
        Forall2 (fun d x => help d (it_doc (snd x))) own xs
    | _, _ => help ds0 d0
    end.

  (** The file [f] is what [text] says: white text, comments, directive lines, then items. *)
  Definition outlines (text : str) (f : file) : Prop :=
    exists w pre ds0 rest e dirs body its own xs,
      text = w ++ pre ++ rest /\ all_white w /\ (forall c s, pre ++ rest = c :: s -> white k c = false) /\
      comments pre ds0 rest /\
      last_end pre e rest /\ e ++ rest = dirs ++ body /\ (fl_dirs f = [] -> dirs = []) /\ (fl_dirs f <> [] -> line_done dirs /\ opens dirs) /\
      splits 0 (firstn (length text - length body) text) body its /\
      Forall2 (fun bi ox => entry (fst bi) (snd bi) (fst ox) (snd ox)) its (combine own xs) /\ length own = length xs /\
      docs (fl_dirs f = [] /\ ~ begins [nl; nl] body) ds0 (fl_doc f) own xs /\
      fl_types f = of_types xs /\ fl_impls f = of_impls xs /\ fl_exprs f = of_exprs xs.
End FileSpec.
