(** C42: what the file cache returns. *)
From Coq Require Import String List ZArith NArith Arith Lia Bool Sorted.
From Verif Require Import Model.Base Model.Value Model.FsCache Spec.FsCacheSpec Proofs.FsCacheProofs.
Import ListNotations.

(** A lookup returns a value exactly if it was inserted for the path (up to letter case) and type, was not replaced
    and not reported changed since, and survived each clean-up by recent use. *)
Theorem C42_lookup : forall lower log now p t v, in_time_order log ->
  fst (cache_get lower now p t (cache_run lower log)) = Some v <-> cached lower log p t v.
Proof. exact lookup_spec. Qed.
Print Assumptions C42_lookup.

(** [open] returns what the file holds, if writes are reported after the opens that raced them have inserted, and no
    other file has the same name up to letter case. *)
Theorem C42_open : forall lower parse w now p t v,
  (forall u c x, parse u c = Some x -> ty_eqb (ty_of x) u = true) ->
  (forall q c u i ps s, In (s, WWrite q c) w \/ In (s, WOpened q u i) w \/ (In (s, WNotice ps) w /\ In q ps) -> lower q = lower p -> q = p) ->
  (forall u u' c, ty_eqb u u' = true -> parse u c = parse u' c) ->
  in_time_order (cache_log parse w) -> reads_before w -> reported w p ->
  open_value lower parse w now p t = Some v <-> exists c, holds w p (Some c) /\ parse t c = Some v.
Proof. exact open_fresh. Qed.
Print Assumptions C42_open.

Section Examples.
  Let low (s : str) : str := map (fun c => if (c <? 97)%N && (64 <? c)%N then (c + 32)%N else c) s.
  Let log := [(1%N, CInsert (lit "a") (VStr (lit "one"))); (2%N, CInsert (lit "b") (VStr (lit "two")));
              (3%N, CGet (lit "a") TStr); (9%N, CExpire 7%N); (10%N, CChanged [lit "c"])].
  Example C42_example : in_time_order log /\
    fst (cache_get low 11 (lit "a") TStr (cache_run low log)) = Some (VStr (lit "one")) /\
    fst (cache_get low 11 (lit "b") TStr (cache_run low log)) = None /\
    fst (cache_get low 11 (lit "a") TTab (cache_run low log)) = None.
  Proof. split; [repeat constructor; discriminate|]. vm_compute. auto. Qed.

  Let parse (t : ty) (c : str) : option value := match t with TStr => Some (VStr c) | _ => None end.
  Let w := [(1%N, WWrite (lit "f") (Some (lit "old"))); (2%N, WNotice [lit "f"]); (3%N, WOpened (lit "f") TStr 2);
            (4%N, WLookup (lit "f") TStr); (5%N, WWrite (lit "f") (Some (lit "new"))); (6%N, WNotice [lit "f"])].
  Example C42_example_open : in_time_order (cache_log parse w) /\ reads_before w /\ reported w (lit "f") /\
    open_value low parse w 7 (lit "f") TStr = Some (VStr (lit "new")) /\
    open_value low parse (firstn 4 w) 7 (lit "f") TStr = Some (VStr (lit "old")).
  Proof.
    split; [repeat constructor; discriminate|]. split.
    { intros k t p u i H. do 6 (destruct k as [|k]; [try discriminate; injection H as <- <- <- <-; lia|]). destruct k; discriminate. }
    split; [|vm_compute; auto].
    intros k t d H. destruct k as [|[|[|[|[|[|k]]]]]]; try discriminate; [| |destruct k; discriminate].
    - exists 5, 6%N, [lit "f"]. split; [lia|]. split; [reflexivity|]. split; [now left|].
      intros n t' u i Hn _. do 6 (destruct n as [|n]; [try discriminate; lia|]). destruct n; discriminate.
    - exists 5, 6%N, [lit "f"]. split; [lia|]. split; [reflexivity|]. split; [now left|].
      intros n t' u i Hn _. do 6 (destruct n as [|n]; [try discriminate; lia|]). destruct n; discriminate.
  Qed.
End Examples.

(** Finding: an [open] that read a file before it was written but inserts after the change was reported leaves the
    old content in the cache, and later calls return it although every write was reported. *)
Theorem C42_race_refuted : exists lower parse w now p v c, reads_before w /\
  (forall k t d, nth_error w k = Some (t, WWrite p d) -> exists j t' ps, k < j /\ nth_error w j = Some (t', WNotice ps) /\ In p ps) /\
  open_value lower parse w now p TStr = Some v /\ holds w p (Some c) /\ v <> VStr c /\ parse TStr c = Some (VStr c).
Proof.
  exists (fun s => s), (fun t c => match t with TStr => Some (VStr c) | _ => None end),
    [(1%N, WWrite (lit "f") (Some (lit "old"))); (2%N, WWrite (lit "f") (Some (lit "new"))); (3%N, WNotice [lit "f"]); (4%N, WOpened (lit "f") TStr 1)],
    5%N, (lit "f"), (VStr (lit "old")), (lit "new").
  split; [|split; [|split; [vm_compute; reflexivity|]]].
  - intros k t p u i H. do 4 (destruct k as [|k]; [try discriminate; injection H as <- <- <- <-; lia|]). destruct k; discriminate.
  - intros k t d H. exists 2, 3%N, [lit "f"]. split; [|split; [reflexivity|now left]].
    destruct k as [|[|[|[|k]]]]; try discriminate; try lia. destruct k; discriminate.
  - split; [right; eexists [_], 2%N, [_; _]; split; [reflexivity|intros t d [[=]|[[=]|[]]]]|]. split; [discriminate|reflexivity].
Qed.

(** Finding: two files whose names differ in letter case only share an entry. *)
Theorem C42_case_refuted : exists lower log p q v, p <> q /\ in_time_order log /\
  (forall t q' w, In (t, CInsert q' w) log -> q' = q) /\
  fst (cache_get lower 2 p TStr (cache_run lower log)) = Some v.
Proof.
  exists (fun s => map (fun c => if (c <? 97)%N then (c + 32)%N else c) s), [(1%N, CInsert (lit "f") (VStr (lit "x")))],
    (lit "F"), (lit "f"), (VStr (lit "x")).
  split; [discriminate|]. split; [repeat constructor|]. split; [|vm_compute; reflexivity].
  intros t q' w [[= _ <- _]|[]]. reflexivity.
Qed.

(** Finding: a lookup does not look at the age, so an entry past its lifespan is returned (and renewed) until a
    clean-up finds it; the clean-up itself runs once per lifespan. *)
Theorem C42_lifespan_refuted : forall life, (0 < life)%N -> exists log now p v, in_time_order log /\
  log = [(0%N, CInsert p v)] /\ (life < now)%N /\
  fst (cache_get (fun s => s) now p TStr (cache_run (fun s => s) log)) = Some v.
Proof.
  intros life H. exists [(0%N, CInsert (lit "f") (VStr (lit "x")))], (life + 1)%N, (lit "f"), (VStr (lit "x")).
  split; [repeat constructor|]. split; [reflexivity|]. split; [lia|]. vm_compute. reflexivity.
Qed.
