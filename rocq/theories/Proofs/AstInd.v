(** Induction over trees. *)
From Coq Require Import List ZArith NArith.
From Verif Require Import Model.Base Model.Ast.
Import ListNotations.

Section Ind.
  Variables (Pa : arg -> Prop) (Pt : term -> Prop) (Pb : block -> Prop) (Pe : expr -> Prop).
  Hypothesis H1 : forall t, Pa (AIdent t).
  Hypothesis H2 : forall z t, Pa (ANum z t).
  Hypothesis H3 : forall c t, Pa (APound c t).
  Hypothesis H4 : forall t, Pa (AVar t).
  Hypothesis H5 : forall e, Pe e -> Pa (AExpr e).
  Hypothesis H6 : forall a, Pa a -> Pt (TArg a).
  Hypothesis H7 : forall t, Pt (TFlag t).
  Hypothesis H8 : forall o ts i out, Forall Pt ts -> Pb (BPrefix o ts i out).
  Hypothesis H9 : forall o l r out, Pa l -> Pb (BDot o l r out).
  Hypothesis H10 : forall t bs out, Forall Pb bs -> Pe (Expr t bs out).

  Fixpoint arg_all (a : arg) : Pa a :=
    match a with
    | AIdent t => H1 t
    | ANum z t => H2 z t
    | APound c t => H3 c t
    | AVar t => H4 t
    | AExpr e => H5 e (expr_all e)
    end
  with term_all (t : term) : Pt t := match t with TArg a => H6 a (arg_all a) | TFlag t => H7 t end
  with block_all (b : block) : Pb b :=
    match b with
    | BPrefix o ts i out => H8 o ts i out ((fix go (ts : list term) : Forall Pt ts :=
        match ts with [] => Forall_nil _ | t :: ts => Forall_cons _ (term_all t) (go ts) end) ts)
    | BDot o l r out => H9 o l r out (arg_all l)
    end
  with expr_all (e : expr) : Pe e :=
    match e with
    | Expr t bs out => H10 t bs out ((fix go (bs : list block) : Forall Pb bs :=
        match bs with [] => Forall_nil _ | b :: bs => Forall_cons _ (block_all b) (go bs) end) bs)
    end.

  Lemma tree_all : (forall a, Pa a) /\ (forall t, Pt t) /\ (forall b, Pb b) /\ (forall e, Pe e).
  Proof. repeat split; [apply arg_all|apply term_all|apply block_all|apply expr_all]. Qed.
End Ind.
