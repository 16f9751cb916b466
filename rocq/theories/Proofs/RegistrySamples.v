(** A small set of built-in definitions and some user definitions, for examples. *)
From Coq Require Import String List ZArith NArith Bool.
From Verif Require Import Model.Base Model.Value Model.Ast Model.Registry Spec.RegistrySpec.
Import ListNotations.

Definition tg (s : string) : tag := Tag 0 0 (lit s).
Definition blk (op : string) (ts : list term) : block := BPrefix (OpSingle (tg op)) ts None None.
Definition ex (bs : list block) : expr := Expr (tg "") bs None.
Definition var (s : string) : term := TArg (AVar (tg s)).
Definition num (z : Z) : term := TArg (ANum (num_of_Z z) (tg "")).
Definition sub (bs : list block) : term := TArg (AExpr (ex bs)).
Definition df (l : loc) (n : string) (i : option string) (ps : list string) (bs : list block) : defn :=
  Defn l (lit n) (option_map lit i) (map (fun p => (lit p, None)) ps) (ex bs).
Definition file : loc := LFile (lit "a.ogma") 3.

(** get, eq and \ as intrinsics; = as a derived definition. *)
Definition sample : defs :=
  Defs [(lit "get", Keys [] (Some (IIntrinsic LOgma (IBuiltin 0))));
        (lit "eq", Keys [(TNum, IIntrinsic LOgma (IBuiltin 1)); (TStr, IIntrinsic LOgma (IBuiltin 2))] None);
        (lit "\", Keys [] (Some (IIntrinsic LOgma (IBuiltin 3))));
        (lit "=", Keys [] (Some (IDef (df LOgma "=" None ["rhs"%string] [blk "eq" [var "rhs"]]))))]
       base_types.

Lemma sample_built_in : built_in sample.
Proof.
  split; [split; [split|]|split].
  - cbn. repeat constructor; cbn; intuition discriminate.
  - intros op k I i j a b A B E. cbn in I.
    destruct I as [I|[I|[I|[I|[]]]]]; injection I as <- <-; cbn in A, B.
    + destruct i; discriminate.
    + destruct i as [|[|[|i]]], j as [|[|[|j]]]; cbn in A, B; try discriminate; auto;
        injection A as <-; injection B as <-; discriminate.
    + destruct i; discriminate.
    + destruct i; discriminate.
  - cbn. repeat constructor; cbn; intuition discriminate.
  - intros op k i I D. cbn in I. destruct I as [I|[I|[I|[I|[]]]]]; injection I as <- <-; cbn in D;
      destruct D as [D|D]; try discriminate; try (injection D as <-; reflexivity); intuition (subst; reflexivity).
  - intros n l d I. cbn in I. repeat (destruct I as [I|I]; [first [discriminate|injection I as <- <- <-; reflexivity]|]). destruct I.
Qed.
