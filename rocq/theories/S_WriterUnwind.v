(** * S_WriterUnwind: who has which item, when destructors panic. *)
From Coq Require Import List Arith.
From Verif Require Import M_Writer S_Contract S_Unwind.
Import ListNotations.

(** How a program ends on a bounded buffer: with its answer, unwinding with [stale] cells
    that the buffer still counts though their items are gone, or aborting. *)
Inductive tail_end (E G : Type) :=
| TAnswers (e : ending E G)
| TUnwinds (stale : nat)
| TAborts.
Arguments TAnswers {E G}. Arguments TUnwinds {E G}. Arguments TAborts {E G}.

(** Where the account stands: what is held, what was handed to the writer, what was dropped. *)
Record account (T : Type) := Account { held : list T; given_in : list T; gone : list T }.
Arguments Account {T}. Arguments held {T}. Arguments given_in {T}. Arguments gone {T}.

(** How many items are replaced when storing over [olds]: up to the first whose destructor
    panics, that one too. *)
Fixpoint until {T} (panics : T -> bool) (olds : list T) : nat :=
  match olds with [] => 0 | y :: olds' => if panics y then 1 else S (until panics olds') end.

(** The writer of the generic sequence with [room] cells, as [lossy] of S_Contract.
    [late]: [shrink_to] lets the length stand until the items are dropped. *)
Fixpoint owned {T E G} (panics : T -> bool) (late : bool) (room : nat) (p : wprog T E G) (a : account T)
  : comp (account T * tail_end E G) :=
  let xs := held a in
  match p with
  | WPush x k =>
      if 2 * length xs =? room then owned panics late room (k false) a
      else if length xs <? room then owned panics late room (k true) (Account (xs ++ [x]) (given_in a ++ [x]) (gone a)) else UB
  | WFill ys k =>
      if room <? 2 * length xs then Panic
      else let zs := firstn (room - 2 * length xs) ys in
           owned panics late room (k (length zs)) (Account (xs ++ zs) (given_in a ++ zs) (gone a))
  | WShrink n k =>
      if n <=? length xs then
        let a' := Account (firstn n xs) (given_in a) (gone a ++ skipn n xs) in
        match bad panics (skipn n xs) with
        | 0 => owned panics late room k a'
        | 1 => Ret (a', TUnwinds (if late then length xs - n else 0))
        | _ => Ret (a, TAborts)
        end
      else Panic
  | WLen k => owned panics late room (k (length xs)) a
  | WCapacity k => owned panics late room (k (room - length xs)) a
  | WSlice k => owned panics late room (k xs) a
  | WEdit f k =>
      let m := Nat.min (length (f xs)) (until panics xs) in
      let a' := Account (firstn m (f xs) ++ skipn m xs) (given_in a ++ firstn m (f xs)) (gone a ++ firstn m xs) in
      match bad panics (firstn m xs) with
      | 0 => owned panics late room k a'
      | _ => Ret (a', TUnwinds 0)
      end
  | WAdvance g => Ret (a, TAnswers (Advances g))
  | WCancel e g => Ret (a, TAnswers (Cancels e g))
  end.
