(** What a language server should do whatever its threads do. *)
From Coq Require Import String List ZArith NArith Bool Arith.
From Verif Require Import Model.Base Model.Value Model.Registry Model.Utf Model.Lsp Model.Server Spec.LspSpec.
Import ListNotations.
Set Implicit Arguments.

(** The requests the server is there to answer. *)
Definition answerable : list str := [lit "initialize"; lit "shutdown"; lit "textDocument/hover"; lit "textDocument/completion"].

Section Spec.
  Variables Q R D : Type.
  (** Everything received has been dealt with. *)
  Definition finished (s : server Q R D) : Prop := s_inbox s = [] /\ forall t, In t (s_pool s) -> t = [].
  (** The requests among messages *)
  Definition asked (ms : list (msg Q)) : list nat := flat_map (fun m => match m with MRequest id method _ => if in_dec (list_eq_dec N.eq_dec) method answerable then [id] else [] | _ => [] end) ms.
  (** The changes of a document *)
  Definition edits (u : str) (ms : list (msg Q)) : list (Z * list change) :=
    flat_map (fun m => match m with MChange u' v cs => if list_eq_dec N.eq_dec u' u then [(v, cs)] else [] | _ => [] end) ms.
  Definition not_opened (u : str) (ms : list (msg Q)) : Prop := forall v text, ~ In (MOpen u v text) ms.
  Definition document (u : str) (s : server Q R D) (f : file) : Prop := alookup str_eqb u (s_files s) = Some f.
End Spec.
