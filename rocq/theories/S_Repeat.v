(** * S_Repeat: copies of a word, and where looking for one breaks. *)
From Verif Require Export S_Seq.

(** [n] copies of [w]. *)
Definition copies (n : nat) (w : list char) : list char := concat (repeat w n).

(** Where [atom w] breaks on a text it is not a prefix of. *)
Definition word_breaks (w rest : list char) : Prop :=
  if chars_len w <=? chars_len rest then ~ boundary rest (chars_len w) else ~ boundary w (chars_len rest).
