(** What a path is completed from, and what is offered where. *)
From Coq Require Import List NArith Bool.
From Verif Require Import Model.Base Model.Highlight Model.Complete.
Import ListNotations.

Definition quote (c : N) : Prop := c = 34%N \/ c = 39%N.
(** Every quote is closed by the same one. *)
Inductive balanced : str -> Prop :=
| bal_nil : balanced []
| bal_char : forall c s, ~ quote c -> balanced s -> balanced (c :: s)
| bal_quoted : forall q m s, quote q -> ~ In q m -> balanced s -> balanced (q :: m ++ q :: s).

Definition after_space (a : str) : Prop := a = [] \/ exists b, a = b ++ [32%N].
(** The quote that is open and what follows it, or the last word; the whole line if it is balanced and ends in a space. *)
Definition path_word (line r : str) : Prop :=
  (exists a q b, line = a ++ r /\ r = q :: b /\ balanced a /\ quote q /\ ~ In q b) \/
  (exists a, line = a ++ r /\ balanced line /\ r <> [] /\ ~ In 32%N r /\ after_space a) \/
  (balanced line /\ after_space line /\ r = line).

(** What is at the cursor: a word of a line that is parsed, or what is expected next. *)
Inductive spot := SWord (t : ntype) | SNext (x : expecting).
Definition wants_impl (s : spot) : Prop := s = SWord NCommand \/ s = SWord NIdent \/ s = SNext XImpl \/ s = SNext XTerm.
Definition wants_type (s : spot) : Prop := s = SWord NType \/ s = SNext XType.
Definition wants_path (s : spot) : Prop := s = SWord NIdent \/ s = SNext XTerm.
Definition wants_lit (s : spot) : Prop := s = SWord NIdent \/ s = SWord NPound \/ s = SNext XTerm \/ s = SNext XSpec.
(** Nothing can be proposed for numbers, variables, flags and parameters. *)
Definition wants (s : spot) : Prop := wants_impl s \/ wants_type s \/ wants_lit s.

(** Entries of a directory that can be read. *)
Definition listed (read_dir : list str -> option (list (option (str * bool)))) (d : list str) (x : def) : Prop :=
  exists es n b, read_dir d = Some es /\ In (Some (n, b)) es /\ x = (n, if b then KDir else KFile).

(** The completions there. *)
Definition at_spot (is_dir : list str -> bool) (read_dir : list str -> option (list (option (str * bool)))) (impls types : list str)
    (line : str) (wd : option (list str)) (s : spot) : res (option (list def)) :=
  match s with
  | SWord t => complete_completions is_dir read_dir impls types line wd (Some t)
  | SNext x => incomplete_completions is_dir read_dir impls types line wd x
  end.
