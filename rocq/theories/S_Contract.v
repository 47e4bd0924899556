(** * S_Contract: what the doc comments of [BufferWriter] ask of an implementation
    (buffer_writer.rs:9-17), and what its provided methods should then do. *)
From Verif Require Export M_GenSeq M_Utf8 S_Utf8.

Set Implicit Arguments.

(** [rep w v]: the writer [w] stands for the buffer [v].  Its [capacity] is that of the
    buffer, its [len] the number of written items, its pointer leads to the cells, and
    [set_len] only sets the length. *)
Record keeps {W T E R} (B : bwriter W T E R) (rep : W -> vec T -> Prop) : Prop := {
  k_capacity : forall w v, rep w v -> bw_capacity B w = Ret (vcap v);
  k_len : forall w v, rep w v -> bw_len B w = Ret (vlen v);
  k_read : forall w v i x, rep w v -> vec_read v i = Ret x -> bw_read B w i = Ret x;
  k_write : forall w v i x v', rep w v -> vec_write v i x = Ret v' ->
      exists w', bw_write B w i x = Ret w' /\ rep w' v';
  k_set_len : forall w v n v', rep w v -> vec_set_len v n = Ret v' ->
      exists w', bw_set_len B w n = Ret w' /\ rep w' v'
}.

(** A program on an ideal buffer with room for [room] items, [xs] of them written; [None] is
    a panic: shrinking to more than there is. *)
Inductive ending (E G : Type) := Advances (g : G) | Cancels (e : E) (g : G).
Arguments Advances {E G}. Arguments Cancels {E G}.
Fixpoint ideal {T E G} (room : nat) (p : wprog T E G) (xs : list T) : option (list T * ending E G) :=
  match p with
  | WPush x k => if length xs <? room then ideal room (k true) (xs ++ [x]) else ideal room (k false) xs
  | WFill ys k =>
      let zs := firstn (room - length xs) ys in ideal room (k (length zs)) (xs ++ zs)
  | WShrink n k => if n <=? length xs then ideal room k (firstn n xs) else None
  | WLen k => ideal room (k (length xs)) xs
  | WCapacity k => ideal room (k room) xs
  | WSlice k => ideal room (k xs) xs
  | WEdit f k => ideal room k (stored (f xs) xs)
  | WAdvance g => Some (xs, Advances g)
  | WCancel e g => Some (xs, Cancels e g)
  end.

(** The same program on the writer of the generic sequence as it is: it reports the capacity
    that is still free, and undefined behaviour is a result. *)
Fixpoint lossy {T E G} (room : nat) (p : wprog T E G) (xs : list T) : comp (list T * ending E G) :=
  match p with
  | WPush x k =>
      if 2 * length xs =? room then lossy room (k false) xs
      else if length xs <? room then lossy room (k true) (xs ++ [x]) else UB
  | WFill ys k =>
      if room <? 2 * length xs then Panic
      else let zs := firstn (room - 2 * length xs) ys in lossy room (k (length zs)) (xs ++ zs)
  | WShrink n k => if n <=? length xs then lossy room k (firstn n xs) else Panic
  | WLen k => lossy room (k (length xs)) xs
  | WCapacity k => lossy room (k (room - length xs)) xs
  | WSlice k => lossy room (k xs) xs
  | WEdit f k => lossy room k (stored (f xs) xs)
  | WAdvance g => Ret (xs, Advances g)
  | WCancel e g => Ret (xs, Cancels e g)
  end.

(** How a run ends: with the answer of [advance] or [cancel]. *)
Definition ends_as {W T E R G} (B : bwriter W T E R) (w : W) (e : ending E G) (tr : list (wevent T))
  : comp (R * G * list (wevent T) * wend) :=
  match e with
  | Advances g => r <- bw_advance B w ;; Ret (r, g, tr, EndAdvance)
  | Cancels x g => r <- bw_cancel B w x ;; Ret (r, g, tr, EndCancel)
  end.
