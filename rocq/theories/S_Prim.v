(** * S_Prim: a plain sequence cut into arbitrary segments, used to exhibit
    segmentations.  (The repository's own segmented sequence is modelled in
    M_Generic.v.) *)
From Verif Require Export S_Seq.

Set Implicit Arguments.

Record chunked (T : Type) : Type := Chunked { ck_segs : list (list T) }.
Arguments Chunked {T} _.

Fixpoint ck_drop {T} (n : nat) (segs : list (list T)) : option (list (list T)) :=
  match segs with
  | [] => if n =? 0 then Some [] else None
  | x :: rest => if n <=? length x then Some (skipn n x :: rest) else ck_drop (n - length x) rest
  end.

#[export] Instance chunked_sequence {T} : Sequence (chunked T) (list T) := {
  segments := fun s => ck_segs s;
  advance := fun s n => match ck_drop n (ck_segs s) with
                        | Some x => Ret (Chunked x) | None => Panic end
}.
#[export] Instance chunked_rewind {T} : RewindSequence (chunked T) (chunked T) := {
  anchor := fun s => s; rewind := fun _ a => Ret a
}.

(** [segs] are looked at up to and including [seg], which is the first with
    which [n] items are available. *)
Definition ends_in {T} (n : nat) (before : list (list T)) (seg : list T) : Prop :=
  n <= length (concat before) + length seg /\
  forall b1 b2 x, before = b1 ++ x :: b2 -> length (concat b1) + length x < n.
