(** * S_Release: what a program on a writer comes to, with and without overflow checks. *)
From Verif Require Export M_Release S_GenSeq S_Utf8 S_Contract.

Set Implicit Arguments.

(** The program [p] on a writer with [room] cells, the first [h] of them taken by bytes held
    back and the next by [xs].  The free cells are counted after what is taken, once by the
    generic writer and once more (with the held bytes) by Utf8Validator's. *)
Fixpoint plays {T E G} (checks : bool) (usz room h : nat) (p : wprog T E G) (xs : list T)
  : comp (list T * ending E G) :=
  match p with
  | WPush x k =>
      if room =? 2 * h + 2 * length xs then plays checks usz room h (k false) xs
      else if checks && (room <? 2 * h + length xs) then Panic
      else if h + length xs <? room then plays checks usz room h (k true) (xs ++ [x]) else UB
  | WFill ys k =>
      if room <? 2 * h + 2 * length xs then (if checks then Panic else UB)
      else let zs := firstn (room - 2 * h - 2 * length xs) ys in
        plays checks usz room h (k (length zs)) (xs ++ zs)
  | WShrink n k => if n <=? length xs then plays checks usz room h k (firstn n xs) else Panic
  | WLen k => plays checks usz room h (k (length xs)) xs
  | WCapacity k =>
      if room <? 2 * h + length xs
      then (if checks then Panic else plays checks usz room h (k (usz + room - 2 * h - length xs)) xs)
      else plays checks usz room h (k (room - 2 * h - length xs)) xs
  | WSlice k => plays checks usz room h (k xs) xs
  | WEdit f k => plays checks usz room h k (stored (f xs) xs)
  | WAdvance g => Ret (xs, Advances g)
  | WCancel e g => Ret (xs, Cancels e g)
  end.

(** Histories of loads. *)
Fixpoint load_all_m {T E G} checks usz (src : source T E G) (cs : list lcall) (l : loader T G)
  : comp (list (record T E) * loader T G) :=
  match cs with
  | [] => Ret ([], l)
  | LLoad grow :: cs' =>
      ' (i, l1, tr) <- load_m checks usz src grow l ;;
      ' (rs, l2) <- load_all_m checks usz src cs' l1 ;;
      Ret ((i, tr) :: rs, l2)
  | LForce :: cs' => l1 <- force_commit l ;; load_all_m checks usz src cs' l1
  end.

Fixpoint load_utf8_all_m {E G} checks usz (src : source byte E G) (grow : nat -> nat) (n : nat) (l : loader byte (validator G))
  : comp (list (record byte (uerror E)) * loader byte (validator G)) :=
  match n with
  | 0 => Ret ([], l)
  | S n' =>
      ' (i, l1, tr) <- load_utf8_m checks usz src grow l ;;
      ' (rs, l2) <- load_utf8_all_m checks usz src grow n' l1 ;;
      Ret ((i, tr) :: rs, l2)
  end.

(** No request that the source makes on the way comes near the largest number. *)
Definition modest {E G} (usz : nat) (src : source byte E G) (grow : nat -> nat) (l : loader byte (validator G)) : Prop :=
  forall k rs l' n p, load_utf8_all src grow k l = Ret (rs, l') -> src (vsource (ld_source l')) = SRequest n p -> n + 3 < usz.

(** What is kept of a chunk without overflow checks. *)
Definition kept_unchecked {T} (spare h : nat) (chunk : list T) : list T :=
  if (2 * h <=? spare) && Nat.even (spare - 2 * h) then firstn ((spare - 2 * h) / 2) chunk else chunk.

(** The buffers asked for on the way are granted and none is larger than [isize::MAX]. *)
Definition fits (usz : nat) (grow : nat -> nat) (chunks : list (list byte)) : Prop :=
  forall seg n, In seg chunks -> n <= 3 -> n + length seg <= grow (n + length seg) /\ 2 * grow (n + length seg) <= usz.
