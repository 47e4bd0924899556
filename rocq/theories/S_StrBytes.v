(** * S_StrBytes: texts as bytes, and the byte-level contracts of the [str] methods the sequences use.
    Nothing here refers to [len_utf8] or to the model's way of cutting strings. *)
From Coq Require Import List NArith.
From Verif Require Import M_Writer M_Utf8 S_Utf8.
Import ListNotations.

(** The bytes of a text: RFC 3629 char by char. *)
Definition bytes_of (cs : list N) : list byte := flat_map encode cs.

(** Bytes of the form 10xxxxxx. *)
Definition continuation (b : byte) : Prop := (0x80 <= b < 0xC0)%N.

(** [str::is_char_boundary]: the end, or a byte that is not a continuation byte. *)
Definition is_char_boundary (bs : list byte) (n : nat) : Prop :=
  n = length bs \/ exists b, nth_error bs n = Some b /\ ~ continuation b.
