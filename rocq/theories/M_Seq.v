(** * M_Seq: sequences, segments, slices, strings and measured sequences
    (crates/parcom-core/src/sequence.rs, sequence/*.rs, primitive.rs,
    primitive/*.rs).  Model only; no proofs. *)
From Verif Require Export M_Base.

Set Implicit Arguments.

(** crates/parcom-core/src/sequence/segment.rs:1-6 [SequenceSegment] and the
    [PartialEq] of crates/parcom-parsers/src/primitive/atom.rs:68.
    [split_at] may panic. *)
Class Segment (X : Type) : Type := {
  seg_len : X -> nat;
  seg_split_at : X -> nat -> comp (X * X);
  seg_eqb : X -> X -> bool
}.

(** crates/parcom-core/src/sequence.rs:13-23 [Sequence].  [segments] stands for
    the list of segments the stream yields before its first [None]
    (sequence/segment_stream.rs:3-12); the size hint of [next] is ignored by
    every implementation in the repository and is not modelled. *)
Class Sequence (S X : Type) : Type := {
  segments : S -> list X;
  advance : S -> nat -> comp S
}.

(** ** Slices *)

(** A [&[T]]: the allocation it points into, the index of its first item in
    that allocation, and its items. *)
Record slice (T : Type) : Type := Slice {
  sl_alloc : nat;
  sl_off : nat;
  sl_data : list T
}.
Arguments Slice {T} _ _ _.

Section Slice.
  Context {T : Type}.

  (** crates/parcom-core/src/primitive/slice.rs:20-22 [&self[count..]]. *)
  Definition slice_advance (self : slice T) (count : nat) : comp (slice T) :=
    if count <=? length (sl_data self)
    then Ret (Slice (sl_alloc self) (sl_off self + count) (skipn count (sl_data self)))
    else Panic.

  (** crates/parcom-core/src/primitive/slice.rs:33-42.  [offset_from] is UB for
      pointers into different allocations and panics for zero-sized items. *)
  Definition slice_rewind (zst : bool) (self anc : slice T) : comp (slice T) :=
    let len := length (sl_data anc) in
    if zst then Panic
    else if negb (sl_alloc self =? sl_alloc anc) then UB
    else
      let offset := (Z.of_nat (sl_off self) - Z.of_nat (sl_off anc))%Z in
      if (negb (offset <? 0) && (offset <=? Z.of_nat len))%Z
      then Ret anc
      else Panic.

  (** crates/parcom-core/src/primitive.rs:19-34 [Nodes] and slice.rs:16-18: one
      segment, then [None]. *)
  Definition slice_segments (self : slice T) : list (list T) := [sl_data self].

  (** Items of non-zero size. *)
  #[export] Instance slice_rewind_sequence : RewindSequence (slice T) (slice T) := {
    anchor := fun self => self;
    rewind := slice_rewind false
  }.
  #[export] Instance slice_sequence : Sequence (slice T) (list T) := {
    segments := slice_segments;
    advance := slice_advance
  }.

  (** crates/parcom-core/src/primitive/slice.rs:45-55; [<[T]>::split_at] panics
      if [mid > len]. *)
  Definition list_split_at (self : list T) (mid : nat) : comp (list T * list T) :=
    if mid <=? length self then Ret (firstn mid self, skipn mid self) else Panic.

  (** [PartialEq for [T]]. *)
  Fixpoint list_eqb (eqb : T -> T -> bool) (a b : list T) : bool :=
    match a, b with
    | [], [] => true
    | x :: a, y :: b => eqb x y && list_eqb eqb a b
    | _, _ => false
    end.

  Definition list_segment (eqb : T -> T -> bool) : Segment (list T) := {|
    seg_len := @length T;
    seg_split_at := list_split_at;
    seg_eqb := list_eqb eqb
  |}.
End Slice.

(** ** Strings *)

(** A [char] is its code point. *)
Definition char := N.

(** [char::len_utf8] *)
Definition len_utf8 (c : char) : nat :=
  if (c <? 128)%N then 1
  else if (c <? 2048)%N then 2
  else if (c <? 65536)%N then 3
  else 4.

(** The contents of a [str]: its chars. *)
Record str : Type := Str { chars : list char }.

(** [str::len]: bytes. *)
Definition chars_len (cs : list char) : nat := list_sum (map len_utf8 cs).
Definition str_len (s : str) : nat := chars_len (chars s).

(** [str::split_at_checked]: [None] unless [mid] is a char boundary. *)
Fixpoint split_chars (cs : list char) (mid : nat) : option (list char * list char) :=
  if mid =? 0 then Some ([], cs)
  else match cs with
       | [] => None
       | c :: cs' =>
           if len_utf8 c <=? mid then
             match split_chars cs' (mid - len_utf8 c) with
             | Some (a, b) => Some (c :: a, b)
             | None => None
             end
           else None
       end.

(** crates/parcom-core/src/primitive/str.rs:132-142; [str::split_at] panics
    off a char boundary and past the end. *)
Definition str_split_at (self : str) (mid : nat) : comp (str * str) :=
  match split_chars (chars self) mid with
  | Some (a, b) => Ret (Str a, Str b)
  | None => Panic
  end.

Definition str_eqb (a b : str) : bool := list_eqb N.eqb (chars a) (chars b).

#[export] Instance str_segment : Segment str := {
  seg_len := str_len;
  seg_split_at := str_split_at;
  seg_eqb := str_eqb
}.

(** A [&str]: allocation, byte offset in it, contents. *)
Record strref : Type := StrRef {
  sr_alloc : nat;
  sr_off : nat;
  sr_str : str
}.

(** The literal [""] of crates/parcom-core/src/primitive/str.rs:22: an empty
    string in static memory, which is allocation [0]. *)
Definition static_empty : strref := StrRef 0 0 (Str []).

(** crates/parcom-core/src/primitive/str.rs:20-24
    [self.get(delta..).unwrap_or("")]. *)
Definition strref_advance (self : strref) (delta : nat) : comp strref :=
  match split_chars (chars (sr_str self)) delta with
  | Some (_, rest) => Ret (StrRef (sr_alloc self) (sr_off self + delta) (Str rest))
  | None => Ret static_empty
  end.

(** crates/parcom-core/src/primitive/str.rs:35-44; as for slices, on bytes. *)
Definition strref_rewind (self anc : strref) : comp strref :=
  let len := str_len (sr_str anc) in
  if negb (sr_alloc self =? sr_alloc anc) then UB
  else
    let offset := (Z.of_nat (sr_off self) - Z.of_nat (sr_off anc))%Z in
    if (negb (offset <? 0) && (offset <=? Z.of_nat len))%Z
    then Ret anc
    else Panic.

(** crates/parcom-core/src/primitive/str.rs:16-18 *)
Definition strref_segments (self : strref) : list str := [sr_str self].

#[export] Instance strref_rewind_sequence : RewindSequence strref strref := {
  anchor := fun self => self;
  rewind := strref_rewind
}.
#[export] Instance strref_sequence : Sequence strref str := {
  segments := strref_segments;
  advance := strref_advance
}.

(** ** Measured sequences *)

(** crates/parcom-core/src/sequence/measured.rs:3-8 [Meter]; [X] is the segment
    contents. *)
Class Meter (M X : Type) : Type := meter_advance : M -> X -> M.

(** crates/parcom-core/src/sequence/measured.rs:36-57: [usize] as the meter of
    slices. *)
#[export] Instance usize_meter {T} : Meter nat (list T) :=
  fun self segment => self + length segment.

(** crates/parcom-core/src/primitive/slice.rs:76-80, str.rs:66-70 *)
Record measured (M B : Type) : Type := Measured { me_meter : M; me_base : B }.
Arguments Measured {M B} _ _.

(** crates/parcom-core/src/primitive/slice.rs:57-63, str.rs:47-53
    [into_measured_with] *)
Definition into_measured_with {M B} (meter : M) (base : B) : measured M B :=
  Measured meter base.

Section MeasuredSlice.
  Context {T M : Type} {MM : Meter M (list T)}.

  (** crates/parcom-core/src/primitive/slice.rs:108-114 *)
  Definition mslice_advance (self : measured M (slice T)) (delta : nat)
    : comp (measured M (slice T)) :=
    let segment := sl_data (me_base self) in
    let fin := Nat.min (length segment) delta in
    let meter := meter_advance (me_meter self) (firstn fin segment) in
    base <- slice_advance (me_base self) delta ;;
    Ret (Measured meter base).

  (** crates/parcom-core/src/primitive/slice.rs:104-106, 117-132 *)
  #[export] Instance mslice_sequence : Sequence (measured M (slice T)) (list T) := {
    segments := fun self => slice_segments (me_base self);
    advance := mslice_advance
  }.
  #[export] Instance mslice_rewind_sequence :
    RewindSequence (measured M (slice T)) (measured M (slice T)) := {
    anchor := fun self => self;
    rewind := fun _ anc => Ret anc
  }.
End MeasuredSlice.

Section MeasuredStr.
  Context {M : Type} {MM : Meter M str}.

  (** crates/parcom-core/src/primitive/str.rs:98-104; [&segment[..end]] panics
      when [end] is not a char boundary. *)
  Definition mstr_advance (self : measured M strref) (delta : nat)
    : comp (measured M strref) :=
    let segment := sr_str (me_base self) in
    let fin := Nat.min (str_len segment) delta in
    '(consumed, _) <- str_split_at segment fin ;;
    let meter := meter_advance (me_meter self) consumed in
    base <- strref_advance (me_base self) delta ;;
    Ret (Measured meter base).

  (** crates/parcom-core/src/primitive/str.rs:94-96, 107-122 *)
  #[export] Instance mstr_sequence : Sequence (measured M strref) str := {
    segments := fun self => strref_segments (me_base self);
    advance := mstr_advance
  }.
  #[export] Instance mstr_rewind_sequence :
    RewindSequence (measured M strref) (measured M strref) := {
    anchor := fun self => self;
    rewind := fun _ anc => Ret anc
  }.
End MeasuredStr.
