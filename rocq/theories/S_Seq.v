(** * S_Seq: what sequences and primitive parsers are supposed to do, in terms
    of plain lists. *)
From Verif Require Export M_Seq S_Comb.

Set Implicit Arguments.

(** [prefix a b]: [b] starts with [a]. *)
Definition prefix {T} (a b : list T) : Prop := exists rest, b = a ++ rest.

(** A position [s'] later in the same slice as [s]: same allocation, the
    address moved by the number of items dropped. *)
Definition later_slice {T} (s s' : slice T) : Prop :=
  exists dropped,
    sl_data s = dropped ++ sl_data s' /\
    s' = Slice (sl_alloc s) (sl_off s + length dropped) (sl_data s').

(** The same for strings: the address moved by the bytes dropped. *)
Definition later_str (s s' : strref) : Prop :=
  exists dropped,
    chars (sr_str s) = dropped ++ chars (sr_str s') /\
    s' = StrRef (sr_alloc s) (sr_off s + chars_len dropped) (sr_str s').

(** A byte count that falls on a character boundary of a text. *)
Definition boundary (cs : list char) (n : nat) : Prop :=
  exists a b, cs = a ++ b /\ chars_len a = n.

(** Every one of a series of byte counts lands on a boundary of what is left. *)
Fixpoint hits_boundaries (cs : list char) (ns : list nat) : Prop :=
  match ns with
  | [] => True
  | n :: ns => exists a b, cs = a ++ b /\ chars_len a = n /\ hits_boundaries b ns
  end.

(** Advancing several times in a row. *)
Fixpoint advances {S X} `{Sequence S X} (ns : list nat) (s : S) : comp S :=
  match ns with
  | [] => Ret s
  | n :: ns => s' <- advance s n ;; advances ns s'
  end.

(** *** Sequences of items / of chars, cut into segments in any way *)
Definition content {S T} `{Sequence S (list T)} (s : S) : list T := concat (segments s).
Definition text {S} `{Sequence S str} (s : S) : list char := concat (map chars (segments s)).

(** Advancing within the content drops exactly that many items. *)
Definition lawful_items (S T : Type) `{Sequence S (list T)} : Prop :=
  forall (s : S) a b, content s = a ++ b ->
  exists s', advance s (length a) = Ret s' /\ content s' = b.
(** The same for text, in bytes, at character boundaries. *)
Definition lawful_text (S : Type) `{Sequence S str} : Prop :=
  forall (s : S) a b, text s = a ++ b ->
  exists s', advance s (chars_len a) = Ret s' /\ text s' = b.

(** A decidable equality. *)
Definition decides_eq {T} (eqb : T -> T -> bool) : Prop :=
  forall x y, eqb x y = true <-> x = y.

(** *** Measured sequences: a flat machine over a position in one fixed text.
    Operations: consume [n] elements, take an anchor, go back to the [i]-th
    anchor taken. *)
Inductive mop := MAdvance (n : nat) | MAnchor | MRewind (i : nat).
Record flat := Flat { fl_pos : nat; fl_anchors : list nat }.
Definition flat_step (total : nat) (f : flat) (o : mop) : option flat :=
  match o with
  | MAdvance n =>
      if fl_pos f + n <=? total then Some (Flat (fl_pos f + n) (fl_anchors f)) else None
  | MAnchor => Some (Flat (fl_pos f) (fl_anchors f ++ [fl_pos f]))
  | MRewind i =>
      match nth_error (fl_anchors f) i with
      | Some p => Some (Flat p (fl_anchors f))
      | None => None
      end
  end.
Fixpoint flat_run (total : nat) (f : flat) (os : list mop) : option flat :=
  match os with
  | [] => Some f
  | o :: os => match flat_step total f o with Some f' => flat_run total f' os | None => None end
  end.

(** A meter for which measuring in pieces is measuring at once. *)
Definition compositional {M T} (adv : M -> list T -> M) : Prop :=
  (forall m, adv m [] = m) /\ forall m a b, adv (adv m a) b = adv m (a ++ b).

(** Driving a real sequence through the same operations; [amount s n] is the
    length, in the sequence's own unit, of the next [n] elements. *)
Section Drive.
  Context {S X A : Type} {SQ : Sequence S X} {RS : RewindSequence S A}.
  Variable amount : S -> nat -> nat.
  Definition drive_step (st : S * list A) (o : mop) : comp (S * list A) :=
    let '(s, ancs) := st in
    match o with
    | MAdvance n => s' <- advance s (amount s n) ;; Ret (s', ancs)
    | MAnchor => Ret (s, ancs ++ [anchor s])
    | MRewind i =>
        match nth_error ancs i with
        | Some a => s' <- rewind s a ;; Ret (s', ancs)
        | None => Panic
        end
    end.
  Fixpoint drive (st : S * list A) (os : list mop) : comp (S * list A) :=
    match os with
    | [] => Ret st
    | o :: os => st' <- drive_step st o ;; drive st' os
    end.
End Drive.
