(** C58: each tab stays below the root, where its own [cd]s have led. *)
From Coq Require Import String List ZArith NArith Bool Arith.
From Verif Require Import Model.Base Model.SavePath Model.ShellDirs Spec.PathSpec Spec.DirSpec Proofs.DirProofs.
Import ListNotations.

(** After any session, with the file system changing between lines, [cd] shows no error and goes to the directory exactly if the
    path leads below the root from where the tab is; otherwise it shows an error and the tab stays. *)
Theorem C58_cd : forall root es canon cwd tab p ev, usable root -> Forall sound_entry es -> file_system canon cwd -> p <> [] -> exists pl ev',
  goes root tab AtStart (map typed_of es) pl /\ snd (session (start root) (es ++ [Entry canon tab (lit "cd " ++ p) ev])) = snd (session (start root) es) ++ [ev'] /\
  (forall rel, leads canon root pl p rel -> ev' = Moved None (slashed rel)) /\
  ((forall rel, ~ leads canon root pl p rel) -> exists e, ev' = Moved (Some e) (place_text root pl)).
Proof. exact session_cd. Qed.
Print Assumptions C58_cd.
(** Anything else is evaluated in the directory the tab is in. *)
Theorem C58_eval : forall root es canon tab line, usable root -> Forall sound_entry es -> (forall p, line <> lit "cd " ++ p) -> (forall f, line <> lit "run " ++ f) -> exists pl,
  goes root tab AtStart (map typed_of es) pl /\ snd (session (start root) (es ++ [Entry canon tab line true])) = snd (session (start root) es) ++ [Evaluated (place_text root pl)].
Proof. exact session_eval. Qed.
Print Assumptions C58_eval.
(** [run] opens a file exactly if the path leads below the root. *)
Theorem C58_run : forall root es canon cwd tab fl f par fast ev, usable root -> Forall sound_entry es -> file_system canon cwd -> batch_flags fl = (f, par, fast) -> exists pl ev',
  goes root tab AtStart (map typed_of es) pl /\ snd (session (start root) (es ++ [Entry canon tab (lit "run " ++ fl) ev])) = snd (session (start root) es) ++ [ev'] /\
  (forall rel, leads canon root pl f rel -> ev' = Batch (slashed rel) par fast) /\
  ((forall rel, ~ leads canon root pl f rel) -> exists e, ev' = Refused e).
Proof. exact session_run. Qed.
Print Assumptions C58_run.
(** Where a tab goes is determined, and given by names, so below the root on paper too. *)
Theorem C58_place : forall root tab es pl pl', goes root tab AtStart es pl -> goes root tab AtStart es pl' -> pl = pl'.
Proof. exact (fun root tab es pl pl' => goes_fun root tab es AtStart pl pl'). Qed.
Print Assumptions C58_place.
Theorem C58_names : forall root tab es rel, Forall (fun e : typed => exists cwd, file_system (fst (fst e)) cwd) es -> goes root tab AtStart es (Below rel) -> Forall name rel.
Proof. exact (fun root tab es rel F G => goes_names root tab es AtStart (Below rel) F G I). Qed.
Print Assumptions C58_names.
Theorem C58_below : forall root rel d, root <> [] -> Forall name rel -> walk d (components (path_join root (slashed rel))) = walk d (components root) ++ rel.
Proof. exact below_root. Qed.
Print Assumptions C58_below.

(** With the root of the shell, a dot: [run] opens the file it has checked; [ls] lists what [open] would look at, and the
    directory of the tab.  (Not if the tab has gone back to the root, see below.) *)
Theorem C58_run_file : forall canon cwd pl f rel, file_system canon cwd -> leads canon dot pl f rel -> rel <> [] -> canon (slashed rel) = canon (from dot pl f).
Proof. exact run_same. Qed.
Print Assumptions C58_run_file.
Theorem C58_ls_path : forall canon cwd pl p, file_system canon cwd -> match pl with AtStart => True | Below rel => Forall name rel /\ rel <> [] end -> p <> [] ->
  canon (ls_path (place_text dot pl) (Some p)) = canon (io_path dot (place_text dot pl) p).
Proof. exact ls_same. Qed.
Print Assumptions C58_ls_path.
Theorem C58_ls : forall canon cwd rel, file_system canon cwd -> Forall name rel -> rel <> [] ->
  canon (ls_path (place_text dot (Below rel)) None) = canon (path_join dot (slashed rel)).
Proof. exact ls_here. Qed.
Print Assumptions C58_ls.

(** The flags of [run]: text without them is the path; a path without spaces before them is the path. *)
Theorem C58_no_flags : forall s, text_contains (lit " --no-par") s = false -> text_contains (lit " --no-fast-fail") s = false -> batch_flags s = (s, None, None).
Proof. exact flags_none. Qed.
Print Assumptions C58_no_flags.
Theorem C58_flags : forall f x, ~ In 32%N f -> let '(r, par, fast) := batch_flags x in batch_flags (f ++ x) = (f ++ r, par, fast).
Proof. exact flags_word. Qed.
Print Assumptions C58_flags.

Definition home : list str := [lit "h"].
Definition tree : list (list str) := [home; [lit "h"; lit "s"]; [lit "h"; lit "s"; lit "t"]; [lit "etc"]; [lit "h"; lit "b"]; [lit "etc"; lit "b"]].
Lemma tree_names : Forall (Forall name) tree.
Proof. repeat constructor; try discriminate; intros H; cbn in H; repeat (destruct H as [H|H]; [discriminate|]); contradiction. Qed.
Definition disk := walked home tree.
Definition enters (ls : list (nat * string)) : list entry := map (fun l => Entry disk (fst l) (lit (snd l)) true) ls.
Example C58_example : file_system disk home /\
  snd (session (start dot) (enters [(0, "cd s/t"); (1, "cd s"); (0, "cd .."); (0, "len"); (1, "cd ../../etc"); (1, "len"); (2, "len"); (2, "cd s"); (0, "run ../b --no-par"); (0, "run /etc/b")]%string)) =
  [Moved None (lit "s/t"); Moved None (lit "s"); Moved None (lit "s"); Evaluated (lit "s"); Moved (Some 0) (lit "s"); Evaluated (lit "s");
   Evaluated (lit "."); Moved None (lit "s"); Batch (lit "b") (Some false) None; Refused 0].
Proof. split; [apply walked_system; [exact tree_names|now left]|reflexivity]. Qed.
Example C58_example_flags : batch_flags (lit " --no-par --no-fast-fail") = ([], Some false, Some false) /\ batch_flags (lit " --no-fast-fail") = ([], None, Some false).
Proof. split; reflexivity. Qed.

(** After going to the root, by [cd .] or by [cd ..], the working directory is the empty path, which names no directory: [ls]
    fails, although the tab is in the root. *)
Theorem C58_ls_refuted : snd (session (start dot) (enters [(0, "cd ."); (0, "ls")]%string)) = [Moved None []; Evaluated []] /\
  forall canon cwd, file_system canon cwd -> canon (ls_path [] None) = None /\ canon dot = Some cwd.
Proof. split; [reflexivity|]. intros canon cwd FS. split; [exact (fs_empty FS)|exact (fs_here FS)]. Qed.
Print Assumptions C58_ls_refuted.

(** With another relative root, evaluating anything in a tab first makes [cd] look below the root of the root. *)
Theorem C58_relative_refuted : exists root, snd (session (start root) (enters [(0, "cd t")]%string)) = [Moved None (lit "t")] /\
  snd (session (start root) (enters [(0, "len"); (0, "cd t")]%string)) = [Evaluated root; Moved (Some 1) root].
Proof. exists (lit "s"). split; reflexivity. Qed.
Print Assumptions C58_relative_refuted.

(** With an absolute root other than the directory of the process, [run] checks one file and opens another. *)
Theorem C58_other_refuted : exists root, usable root /\ snd (session (start root) (enters [(0, "run b")]%string)) = [Batch (lit "b") None None] /\
  disk (from root AtStart (lit "b")) = Some [lit "etc"; lit "b"] /\ disk (lit "b") = Some [lit "h"; lit "b"].
Proof. exists (lit "/etc"). split; [now right|]. repeat split; reflexivity. Qed.
Print Assumptions C58_other_refuted.

(** A file whose name contains a flag cannot be run under its name. *)
Theorem C58_name_refuted : exists s, s = lit "a --no-parrot" /\ batch_flags s = (lit "arot", Some false, None).
Proof. eexists. split; [reflexivity|]. reflexivity. Qed.
Print Assumptions C58_name_refuted.
