(** * S_Foreign: views of memory, and the anchors that belong to a view. *)
From Verif Require Export S_Seq.

Set Implicit Arguments.

(** What every allocation holds. *)
Definition memory (T : Type) := nat -> list T.

(** A slice [&mem[off..off + len]]: what it shows is what is there. *)
Definition views {T} (m : memory T) (s : slice T) : Prop :=
  exists before after, m (sl_alloc s) = before ++ sl_data s ++ after /\ sl_off s = length before.
Definition slice_end {T} (s : slice T) : nat := sl_off s + length (sl_data s).

(** A [&str] in a text; the offset counts bytes. *)
Definition views_str (m : memory char) (s : strref) : Prop :=
  exists before after, m (sr_alloc s) = before ++ chars (sr_str s) ++ after /\ sr_off s = chars_len before.
Definition str_end (s : strref) : nat := sr_off s + chars_len (chars (sr_str s)).

(** [anc] is an anchor of the sequence [self] is now: it got here by advancing. *)
Definition anchor_of {S X} `{Sequence S X} (self anc : S) : Prop := exists ns, advances ns anc = Ret self.
