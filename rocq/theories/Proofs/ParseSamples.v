(** A language of ASCII letters and whole numbers, for examples. *)
From Coq Require Import String List ZArith NArith Bool Arith Lia.
From Verif Require Import Model.Base Model.Utf Model.Ast Model.Parse Spec.ParseSpec.
Import ListNotations.

Definition letter (c : N) : bool := (N.leb 65 c && N.leb c 90) || (N.leb 97 c && N.leb c 122).
Definition digit (c : N) : bool := N.leb 48 c && N.leb c 57.
Definition blank_char (c : N) : bool := existsb (N.eqb c) [9; 10; 11; 12; 13; 32]%N.
Fixpoint digits (n : Z) (t : str) : option Z :=
  match t with
  | [] => Some n
  | c :: t => if digit c then digits (10 * n + Z.of_N (c - 48)) t else None
  end.
Definition whole (t : str) : option Z :=
  match t with
  | [] => None
  | c :: t' => if N.eqb c 45 then match t' with [] => None | _ => option_map Z.opp (digits 0 t') end else digits 0 t
  end.
Definition ops : list str := map lit ["get"; "filter"; "pick"; "len"; "ls"; "="; "+"; "-"; "."; "/"]%string.
Definition ascii : lang :=
  Lang letter (fun c => letter c || digit c) blank_char whole (fun t => existsb (str_eqb t) ops).

Lemma ascii_sane : sane ascii.
Proof.
  constructor; cbn [alpha alnum white number ascii].
  - intros c ->. reflexivity.
  - intros c H. cbn in H. repeat (destruct H as [<-|H]; [reflexivity|]). destruct H.
  - intros c H. split.
    + destruct (blank_char c) eqn:B; [|reflexivity]. apply existsb_exists in B. destruct B as (x & Hx & E). apply N.eqb_eq in E. subst x.
      cbn in Hx. repeat (destruct Hx as [<-|Hx]; [discriminate|]). destruct Hx.
    + intros I. cbn in I. repeat (destruct I as [<-|I]; [discriminate|]). destruct I.
  - intros c H. cbn in H. repeat (destruct H as [<-|H]; [reflexivity|]). destruct H.
  - intros c t H. cbn in H. repeat (destruct H as [<-|H]; [reflexivity|]). destruct H.
  - intros t. reflexivity.
Qed.
