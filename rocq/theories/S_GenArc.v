(** * S_GenArc: which segments of the chain are to be there. *)
From Coq Require Import List Arith.
From Verif Require Import M_GenArc.
Import ListNotations.

Section Spec.
  Context {T : Type}.
  Implicit Types s : astate T.

  (** The buffer and the loader are between calls, or gone. *)
  Definition settled s : Prop :=
    match a_buf s with BIdle _ | BGone None => True | _ => False end /\
    match a_load s with LIdle _ | LGone None => True | _ => False end.

  (** The first node someone still needs: the head of the buffer; without the buffer the
      tail of the loader; without both, none. *)
  Definition first_needed s : nat :=
    match a_buf s, a_load s with
    | BIdle b, _ => head_node b
    | _, LIdle t => t
    | _, _ => length (a_arcs s)
    end.

  Definition freed s (i : nat) : Prop := nth_error (a_arcs s) i = Some None.

  (** The buffer is there, and this is its first node: nothing from here on may go. *)
  Definition first_readable s : option nat :=
    match a_buf s with
    | BIdle b | BWalk b _ | BCloned b _ | BDrop b _ _ => Some (head_node b)
    | BGone _ => None
    end.

  (** How deep destructors of nodes are nested. *)
  Definition depth_buffer s : nat :=
    match a_buf s with BDrop _ _ d | BGone (Some (_, d)) => d | _ => 0 end.
  Definition depth_loader s : nat :=
    match a_load s with LDrop _ _ d | LGone (Some (_, d)) => d | _ => 0 end.
End Spec.
