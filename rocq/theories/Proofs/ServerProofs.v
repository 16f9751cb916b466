(** Proofs for C81. *)
From Coq Require Import String List ZArith NArith Bool Arith Lia Permutation.
From Verif Require Import Model.Base Model.Value Model.Registry Model.Utf Model.Lsp Model.Server Spec.LspSpec Spec.ServerSpec Proofs.LspProofs Proofs.RegistryProofs.
Import ListNotations.

Section Server.
  Variable bc : bool.
  Variables Q R D : Type.
  Variable load : list (str * file) -> D.
  Variable call : str -> Q -> list (str * file) -> D -> R.
  Notation run := (run bc load call).
  Notation move := (move bc load call).
  Notation server := (server Q R D).

  (** Something that every action contributes to, and that the messages and threads still owe *)
  Section Owed.
    Variable X : Type.
    Variable of_act : act Q -> list X.
    Definition of_pool (p : list (list (act Q))) : list X := flat_map (flat_map of_act) p.
    Definition of_msgs (ms : list (msg Q)) : list X := flat_map (fun m => flat_map of_act (task m)) ms.
    Lemma take_owed : forall k p a p', take_act k p = Some (a, p') -> Permutation (of_pool p) (of_act a ++ of_pool p').
    Proof.
      induction k as [|k IH]; intros [|t p] a p' H; try discriminate.
      - destruct t as [|b t]; [discriminate|]. injection H as <- <-. cbn. now rewrite <- app_assoc.
      - assert (H' : match take_act k p with Some (a, p) => Some (a, t :: p) | None => None end = Some (a, p')) by (destruct t; exact H).
        destruct (take_act k p) as [[b q]|] eqn:E; [|discriminate]. injection H' as <- <-. cbn. rewrite (IH _ _ _ E). apply Permutation_app_swap_app.
    Qed.
    Lemma take_in : forall k (p : list (list (act Q))) a p', take_act k p = Some (a, p') -> (exists t, In t p /\ In a t) /\ forall t' b, In t' p' -> In b t' -> exists t, In t p /\ In b t.
    Proof.
      induction k as [|k IH]; intros [|t p] a p' H; try discriminate.
      - destruct t as [|b t]; [discriminate|]. injection H as <- <-. split; [exists (b :: t); split; now left|].
        intros t' c [<-|I] J; [exists (b :: t); split; [now left|now right]|exists t'; split; [now right|exact J]].
      - assert (H' : match take_act k p with Some (a, p) => Some (a, t :: p) | None => None end = Some (a, p')) by (destruct t; exact H).
        destruct (take_act k p) as [[b q]|] eqn:E; [|discriminate]. injection H' as <- <-. destruct (IH _ _ _ E) as ((t0 & I & J) & K).
        split; [exists t0; split; [now right|exact J]|]. intros t' c [<-|I'] J'; [exists t; split; [now left|exact J']|].
        destruct (K _ _ I' J') as (t1 & I1 & J1). exists t1. split; [now right|exact J1].
    Qed.
    Definition owed (s : server) : list X := of_pool (s_pool s) ++ of_msgs (s_inbox s).
    Lemma receive_owed : forall m i p f d (o : list (nat * R)), Permutation (owed (Server i (p ++ [task m]) f d o)) (owed (Server (m :: i) p f d o)).
    Proof.
      intros. unfold owed, of_pool, of_msgs. cbn [s_pool s_inbox flat_map]. rewrite flat_map_app. cbn [flat_map]. rewrite app_nil_r, <- app_assoc. apply Permutation_refl.
    Qed.
    Lemma finished_owed : forall s : server, finished s -> owed s = [].
    Proof.
      intros s [I P]. unfold owed. rewrite I. cbn. rewrite app_nil_r. unfold of_pool. induction (s_pool s) as [|t p IH]; [reflexivity|]. cbn.
      rewrite (P t (or_introl eq_refl)). cbn. apply IH. intros t' J. apply P. now right.
    Qed.
  End Owed.

  (** ** Answers *)
  Definition ans (a : act Q) : list nat := match a with AAnswer id _ _ => [id] | _ => [] end.
  Lemma perform_out : forall a (s s' : server), perform bc load call a s = Ok s' -> map fst (s_out s') = map fst (s_out s) ++ ans a /\ s_pool s' = s_pool s /\ s_inbox s' = s_inbox s.
  Proof.
    intros a [i p f d o] s' H. destruct a as [u x|u c| |id m q]; cbn in H.
    - injection H as <-. cbn. now rewrite app_nil_r.
    - destruct (change_file bc u c f); try discriminate. injection H as <-. cbn. now rewrite app_nil_r.
    - injection H as <-. cbn. now rewrite app_nil_r.
    - injection H as <-. cbn. now rewrite map_app.
  Qed.
  Lemma move_out : forall c (s s' : server), move c s = Ok s' -> Permutation (map fst (s_out s') ++ owed nat ans s') (map fst (s_out s) ++ owed nat ans s).
  Proof.
    intros [|k] s s' H; unfold Server.move in H.
    - destruct s as [i p f d o]. cbn in H. destruct i as [|m i]; injection H as <-; [apply Permutation_refl|]. cbn [s_out]. apply Permutation_app_head. apply receive_owed.
    - destruct (take_act k (s_pool s)) as [[a p]|] eqn:T; [|injection H as <-; apply Permutation_refl]. destruct (perform_out _ _ _ H) as (O & P & I).
      cbn [s_out s_pool s_inbox] in O, P, I. unfold owed. rewrite O, P, I. rewrite (take_owed nat ans _ _ _ _ T), <- !app_assoc. apply Permutation_refl.
  Qed.
  Lemma run_out : forall cs (s s' : server), run cs s = Ok s' -> Permutation (map fst (s_out s') ++ owed nat ans s') (map fst (s_out s) ++ owed nat ans s).
  Proof.
    induction cs as [|c cs IH]; intros s s' H; cbn in H; [injection H as <-; apply Permutation_refl|].
    destruct (move c s) as [s1| |] eqn:M; try discriminate. eapply perm_trans; [exact (IH _ _ H)|exact (move_out _ _ _ M)].
  Qed.
  Lemma in_answerable : forall m, In m handled <-> In m answerable.
  Proof. intros m. unfold handled, answerable. cbn [map In]. tauto. Qed.
  Lemma in_handled : forall m, existsb (str_eqb m) handled = true <-> In m answerable.
  Proof.
    intros m. rewrite existsb_exists. rewrite <- in_answerable.
    split; [intros (x & I & E); apply str_eqb_eq in E; now subst|]. intros I. exists m. split; [exact I|apply str_eqb_refl].
  Qed.
  Lemma asked_owed : forall ms, of_msgs nat ans ms = asked ms.
  Proof.
    intros ms. unfold of_msgs, asked. apply flat_map_ext. intros [u v t|u v cs| |id m q|]; try reflexivity. cbn [task].
    destruct (in_dec (list_eq_dec N.eq_dec) m answerable) as [I|I].
    - apply in_handled in I. now rewrite I.
    - destruct (existsb (str_eqb m) handled) eqn:E; [|reflexivity]. apply in_handled in E. contradiction.
  Qed.
  Lemma answered_once : forall cs files d ms s', run cs (start R files d ms) = Ok s' -> finished s' -> Permutation (map fst (s_out s')) (asked ms).
  Proof.
    intros cs files d ms s' H F. pose proof (run_out _ _ _ H) as P. rewrite (finished_owed nat ans s' F), app_nil_r in P.
    change (Permutation (map fst (s_out s')) (of_msgs nat ans ms)) in P. now rewrite asked_owed in P.
  Qed.

  (** ** Documents *)
  Section Doc.
    Variable u : str.
    Definition chg (a : act Q) : list (Z * list change) := match a with AChanges u' c => if list_eq_dec N.eq_dec u' u then [c] else [] | _ => [] end.
    Definition calm (a : act Q) : Prop := match a with AAdd u' _ => u' <> u | _ => True end.
    Definition calm_all (s : server) : Prop := (forall t a, In t (s_pool s) -> In a t -> calm a) /\ not_opened u (s_inbox s).

    Lemma lookup_put : forall u' f l, alookup str_eqb u (put_file u' f l) = if list_eq_dec N.eq_dec u' u then Some f else alookup str_eqb u l.
    Proof.
      intros u' f l. unfold put_file. cbn [alookup]. destruct (str_eqb_spec u' u) as [->|E]; [destruct (list_eq_dec N.eq_dec u u); [reflexivity|congruence]|].
      destruct (list_eq_dec N.eq_dec u' u); [congruence|]. induction l as [|[w g] l IH]; [reflexivity|]. cbn [filter fst alookup].
      destruct (str_eqb_spec w u') as [->|E']; cbn [negb].
      - destruct (str_eqb_spec u' u); [congruence|exact IH].
      - cbn [alookup]. destruct (str_eqb_spec w u); [reflexivity|exact IH].
    Qed.
    Lemma deliver_snoc : forall ds d f, deliver bc (ds ++ [d]) f = let? g := deliver bc ds f in add_changes bc d g.
    Proof.
      induction ds as [|x ds IH]; intros d f; cbn.
      - destruct (add_changes bc d f); reflexivity.
      - destruct (add_changes bc x f); cbn; auto.
    Qed.
    Lemma perform_doc : forall a (s s' : server) f0 ds f, perform bc load call a s = Ok s' -> calm a -> document u s f -> deliver bc ds f0 = Ok f ->
      exists f', document u s' f' /\ deliver bc (ds ++ chg a) f0 = Ok f'.
    Proof.
      intros a [i p fs d o] s' f0 ds f H C L E. unfold document in *. cbn in L. destruct a as [u' x|u' c| |id m q]; cbn in H.
      - injection H as <-. cbn [s_files chg]. rewrite lookup_put. destruct (list_eq_dec N.eq_dec u' u); [cbn in C; congruence|]. exists f. now rewrite app_nil_r.
      - unfold change_file in H. cbn [chg]. destruct (list_eq_dec N.eq_dec u' u) as [->|Ne].
        + rewrite L in H. destruct (add_changes bc c f) as [f'| |] eqn:A; cbn in H; try discriminate. injection H as <-. exists f'. cbn [s_files]. rewrite lookup_put.
          destruct (list_eq_dec N.eq_dec u u); [|congruence]. split; [reflexivity|]. rewrite deliver_snoc, E. exact A.
        + exists f. rewrite app_nil_r. split; [|exact E]. destruct (alookup str_eqb u' fs) as [g|]; cbn in H; [|injection H as <-; exact L].
          destruct (add_changes bc c g) as [f'| |]; cbn in H; try discriminate. injection H as <-. cbn [s_files]. rewrite lookup_put. destruct (list_eq_dec N.eq_dec u' u); [congruence|exact L].
      - injection H as <-. cbn [s_files chg]. exists f. now rewrite app_nil_r.
      - injection H as <-. cbn [s_files chg]. exists f. now rewrite app_nil_r.
    Qed.
    Lemma move_doc : forall c (s s' : server) f0 ds f, move c s = Ok s' -> calm_all s -> document u s f -> deliver bc ds f0 = Ok f ->
      exists ds' f', calm_all s' /\ document u s' f' /\ deliver bc ds' f0 = Ok f' /\ Permutation (ds' ++ owed _ chg s') (ds ++ owed _ chg s).
    Proof.
      intros [|k] s s' f0 ds f H [C1 C2] L E; unfold Server.move in H.
      - destruct s as [i p fs d o]. cbn in H. destruct i as [|m i]; injection H as <-; [exists ds, f; split; [split; [exact C1|exact C2]|auto]|].
        exists ds, f. split; [split|split; [exact L|split; [exact E|apply Permutation_app_head, receive_owed]]].
        + intros t a I J. cbn in I. apply in_app_or in I. destruct I as [I|[<-|[]]]; [exact (C1 _ _ I J)|].
          destruct m as [u' v text|u' v cs| |id mt q|]; cbn [task] in J.
          * destruct J as [<-|[<-|[]]]; [|exact I]. cbn. intros ->. apply (C2 v text). now left.
          * destruct J as [<-|[]]. exact I.
          * destruct J as [<-|[]]. exact I.
          * destruct (existsb (str_eqb mt) handled); [destruct J as [<-|[]]; exact I|destruct J].
          * destruct J.
        + intros v text I. apply (C2 v text). now right.
      - destruct (take_act k (s_pool s)) as [[a p]|] eqn:T; [|injection H as <-; exists ds, f; split; [split; [exact C1|exact C2]|auto]].
        destruct (take_in _ _ _ _ T) as ((t & I & J) & K). destruct (perform_out _ _ _ H) as (_ & P & IB). cbn [s_pool s_inbox] in P, IB.
        destruct (perform_doc _ _ _ f0 ds f H (C1 _ _ I J)) as (f' & L' & E'); [exact L|exact E|].
        exists (ds ++ chg a), f'. split; [split|split; [exact L'|split; [exact E'|]]].
        + rewrite P. intros t' b I' J'. destruct (K _ _ I' J') as (t1 & I1 & J1). exact (C1 _ _ I1 J1).
        + rewrite IB. exact C2.
        + unfold owed. rewrite P, IB, (take_owed _ chg _ _ _ _ T), <- !app_assoc. apply Permutation_refl.
    Qed.
    Lemma run_doc : forall cs (s s' : server) f0 ds f, run cs s = Ok s' -> calm_all s -> document u s f -> deliver bc ds f0 = Ok f ->
      exists ds' f', document u s' f' /\ deliver bc ds' f0 = Ok f' /\ Permutation (ds' ++ owed _ chg s') (ds ++ owed _ chg s).
    Proof.
      induction cs as [|c cs IH]; intros s s' f0 ds f H C L E; cbn in H; [injection H as <-; exists ds, f; auto|].
      destruct (move c s) as [s1| |] eqn:M; try discriminate. destruct (move_doc _ _ _ _ _ _ M C L E) as (ds1 & f1 & C1 & L1 & E1 & P1).
      destruct (IH _ _ _ _ _ H C1 L1 E1) as (ds' & f' & L' & E' & P'). exists ds', f'. split; [exact L'|]. split; [exact E'|]. eapply perm_trans; eauto.
    Qed.
    Lemma edits_owed : forall ms, of_msgs _ chg ms = edits u ms.
    Proof.
      intros ms. unfold of_msgs, edits. apply flat_map_ext. intros [u' v t|u' v cs| |id m q|]; try reflexivity.
      - cbn. destruct (list_eq_dec N.eq_dec u' u); reflexivity.
      - cbn [task]. destruct (existsb (str_eqb m) handled); reflexivity.
    Qed.
    Lemma start_doc : forall cs files d ms s' f, run cs (start R files d ms) = Ok s' -> not_opened u ms -> alookup str_eqb u files = Some f ->
      exists ds' f', document u s' f' /\ deliver bc ds' f = Ok f' /\ Permutation (ds' ++ owed _ chg s') (edits u ms).
    Proof.
      intros cs files d ms s' f H N L. destruct (run_doc _ _ _ f [] f H) as (ds' & f' & A & B & P); [split; [intros t a []|exact N]|exact L|reflexivity|].
      exists ds', f'. split; [exact A|]. split; [exact B|]. rewrite <- edits_owed. exact P.
    Qed.
  End Doc.

  Lemma document_final : forall u cs files d ms s' t v css, run cs (start R files d ms) = Ok s' -> finished s' -> not_opened u ms ->
    alookup str_eqb u files = Some (file_new t v) -> (i32_min <= v)%Z -> (v + Z.of_nat (length css) <= i32_max)%Z -> Permutation (edits u ms) (numbered v css) ->
    exists t', apply_all bc css t = Ok t' /\ document u s' (File t' (v + Z.of_nat (length css)) []).
  Proof.
    intros u cs files d ms s' t v css H F N L A B P. destruct (start_doc u _ _ _ _ _ _ H N L) as (ds & f & Df & Ed & Pd).
    rewrite (finished_owed _ (chg u) s' F), app_nil_r in Pd. rewrite (deliver_any_order bc t v css ds A B (perm_trans Pd P)) in Ed.
    destruct (apply_all bc css t) as [t'| |]; cbn in Ed; try discriminate. injection Ed as <-. exists t'. auto.
  Qed.
  Lemma document_meanwhile : forall u cs files d ms s' t v css, run cs (start R files d ms) = Ok s' -> not_opened u ms ->
    alookup str_eqb u files = Some (file_new t v) -> (i32_min <= v)%Z -> (v + Z.of_nat (length css) <= i32_max)%Z -> Permutation (edits u ms) (numbered v css) ->
    exists k t' pending, k <= length css /\ apply_all bc (firstn k css) t = Ok t' /\ document u s' (File t' (v + Z.of_nat k) pending).
  Proof.
    intros u cs files d ms s' t v css H N L A B P. destruct (start_doc u _ _ _ _ _ _ H N L) as (ds & f & Df & Ed & Pd).
    assert (PP : Permutation (ds ++ owed _ (chg u) s') (numbered v css)) by (eapply perm_trans; eauto).
    assert (Sub : forall x, In x ds -> In x (numbered v css)) by (intros x I; eapply Permutation_in; [exact PP|apply in_or_app; now left]).
    assert (ND : NoDup (map fst ds)).
    { assert (X : NoDup (map fst (ds ++ owed _ (chg u) s'))).
      { eapply Permutation_NoDup; [symmetry; apply Permutation_map, PP|]. rewrite numbered_versions. apply FinFun.Injective_map_NoDup; [|apply seq_NoDup]. intros x y E. lia. }
      rewrite map_app in X. clear - X. induction (map fst ds) as [|x l IH]; [constructor|]. cbn in X. inversion X as [|? ? X1 X2]; subst. constructor; [|auto].
      intros I. apply X1. apply in_or_app. now left. }
    assert (Rg : forall x, In x ds -> (v < fst x <= i32_max)%Z).
    { intros [w x] I. apply Sub in I. apply numbered_in in I. destruct I as (i & Hi & ->). assert (i < length css) by (apply nth_error_Some; congruence). cbn. lia. }
    pose proof (deliver_from_new bc t v ds A ND Rg) as Z. rewrite Ed in Z. destruct Z as (css0 & R0 & V0 & A0 & _).
    destruct (run_prefix v css0 css) as (rest & ->); [intros i x Hi; apply Sub; exact (R0 i x Hi)|].
    exists (length css0), (f_text f), (f_pending f). split; [rewrite app_length; lia|]. split.
    - rewrite firstn_app, Nat.sub_diag, firstn_all. cbn. now rewrite app_nil_r.
    - rewrite <- V0. now destruct f.
  Qed.
End Server.
