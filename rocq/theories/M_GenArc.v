(** * M_GenArc: the reference counts of the chain of segments
    (crates/parcom-sequences/src/generic.rs and generic/{buffer,loader}.rs), with the
    buffer and the loader on threads of their own.
    Model only; no proofs.

    Simplified: an [Arc] whose count falls to zero is destroyed in the same step, and the
    items of its node with it (no one else has it); a count does not overflow; weak
    counts are not used by the code.  What of the loader is not in the chain (its [Vec],
    its source) is left out. *)
From Verif Require Export M_GenSeq.

Set Implicit Arguments.

(** ** [Arc<OnceLock<Node<T>>>], generic.rs:13-16 *)
Record cell (T : Type) := Cell { strong : nat; lock : option (list T * nat) }.
Arguments Cell {T}. Arguments strong {T}. Arguments lock {T}.

(** Allocations in the order they were made; [None] is one that was freed. *)
Definition arcs (T : Type) := list (option (cell T)).

(** A reference to what was freed is dangling. *)
Definition deref {T} (h : arcs T) (l : nat) : comp (cell T) :=
  match nth_error h l with Some (Some c) => Ret c | _ => UB end.

(** [Arc::new(OnceLock::new())] *)
Definition arc_new {T} (h : arcs T) : arcs T * nat := (h ++ [Some (Cell 1 None)], length h).

(** [Arc::clone] *)
Definition arc_clone {T} (h : arcs T) (l : nat) : comp (arcs T) :=
  c <- deref h l ;; Ret (list_set h l (Some (Cell (S (strong c)) (lock c)))).

(** [OnceLock::set], and the [assert!] of loader.rs:46 *)
Definition lock_set {T} (h : arcs T) (l : nat) (n : list T * nat) : comp (arcs T) :=
  c <- deref h l ;;
  match lock c with
  | None => Ret (list_set h l (Some (Cell (strong c) (Some n))))
  | Some _ => Panic
  end.

(** [Drop for Arc]: the last reference frees the node; its [buf] is dropped, then [next],
    which is still to do.  [d]: how many destructors of nodes are on the stack.
    With the items dropped. *)
Definition arc_drop {T} (h : arcs T) (l d : nat) : comp (arcs T * option (nat * nat) * list T) :=
  c <- deref h l ;;
  match strong c with
  | 0 => UB
  | 1 =>
      let h' := list_set h l None in
      match lock c with
      | None => Ret (h', None, [])
      | Some (buf, next) => Ret (h', Some (next, S d), buf)
      end
  | S n => Ret (list_set h l (Some (Cell n (lock c))), None, [])
  end.

(** What the locks hold, as in M_GenSeq. *)
Definition view {T} (h : arcs T) : heap T :=
  map (fun c => match c with Some c => lock c | None => None end) h.

(** ** The thread of the buffer: generic/buffer.rs *)
Inductive bstate :=
| BIdle (b : gbuffer)
| BWalk (b : gbuffer) (a : adv)              (* in the loop of [advance], 37-48 *)
| BCloned (b : gbuffer) (a : adv)            (* [Arc::clone] of line 51 is done *)
| BDrop (b : gbuffer) (p d : nat)            (* the [head_node] it had, [p], is being dropped by the assignment *)
| BGone (p : option (nat * nat)).            (* the buffer is dropped, [p] is still being so *)

(** ** The thread of the loader: generic/loader.rs:40-48 *)
Inductive lstate (T : Type) :=
| LIdle (tail : nat)
| LNew (tail next : nat) (buf : list T)      (* 41 *)
| LCloned (tail next : nat) (buf : list T)   (* 44 *)
| LSet (tail next : nat)                     (* 42-46 *)
| LDrop (tail p d : nat)                     (* 47: the [tail_node] it had, [p], is being dropped *)
| LGone (p : option (nat * nat)).
Arguments LIdle {T}. Arguments LNew {T}. Arguments LCloned {T}. Arguments LSet {T}. Arguments LDrop {T}. Arguments LGone {T}.

(** [made]: the segments committed so far; [lost]: the items dropped so far. *)
Record astate (T : Type) := AState {
  a_arcs : arcs T; a_buf : bstate; a_load : lstate T; made : list (list T); lost : list T }.
Arguments AState {T}. Arguments a_arcs {T}. Arguments a_buf {T}. Arguments a_load {T}. Arguments made {T}. Arguments lost {T}.

(** generic.rs:28-33 [build] *)
Definition a_start (T : Type) : astate T :=
  AState [Some (Cell 2 None)] (BIdle buffer_new) (LIdle 0) [] [].

(** What happens next: a call of the user, if the thread is idle, or a step of a call. *)
Inductive aevent (T : Type) :=
| CallAdvance (n : nat) | DropBuffer | StepBuffer
| Commit (buf : list T) | DropLoader | StepLoader.
Arguments CallAdvance {T}. Arguments DropBuffer {T}. Arguments StepBuffer {T}.
Arguments Commit {T}. Arguments DropLoader {T}. Arguments StepLoader {T}.

Definition step_buffer {T} (s : astate T) : comp (astate T) :=
  let h := a_arcs s in
  match a_buf s with
  | BIdle _ | BGone None => Ret s
  | BWalk b a =>                                                   (* 37-51 *)
      _ <- deref h (ad_node a) ;;
      r <- adv_turn (view h) a ;;
      match r with
      | inl a' => Ret (AState h (BWalk b a') (a_load s) (made s) (lost s))
      | inr a' => h' <- arc_clone h (ad_node a') ;; Ret (AState h' (BCloned b a') (a_load s) (made s) (lost s))
      end
  | BCloned b a => Ret (AState h (BDrop (fst (adv_end a)) (head_node b) 0) (a_load s) (made s) (lost s))
  | BDrop b p d =>
      ' (h', q, xs) <- arc_drop h p d ;;
      Ret (AState h' (match q with Some (p', d') => BDrop b p' d' | None => BIdle b end) (a_load s) (made s) (lost s ++ xs))
  | BGone (Some (p, d)) =>
      ' (h', q, xs) <- arc_drop h p d ;; Ret (AState h' (BGone q) (a_load s) (made s) (lost s ++ xs))
  end.

Definition step_loader {T} (s : astate T) : comp (astate T) :=
  let h := a_arcs s in
  match a_load s with
  | LIdle _ | LGone None => Ret s
  | LNew t n xs => h' <- arc_clone h n ;; Ret (AState h' (a_buf s) (LCloned t n xs) (made s) (lost s))
  | LCloned t n xs =>
      h' <- lock_set h t (xs, n) ;; Ret (AState h' (a_buf s) (LSet t n) (made s ++ [xs]) (lost s))
  | LSet t n => Ret (AState h (a_buf s) (LDrop n t 0) (made s) (lost s))
  | LDrop t p d =>
      ' (h', q, xs) <- arc_drop h p d ;;
      Ret (AState h' (a_buf s) (match q with Some (p', d') => LDrop t p' d' | None => LIdle t end) (made s) (lost s ++ xs))
  | LGone (Some (p, d)) =>
      ' (h', q, xs) <- arc_drop h p d ;; Ret (AState h' (a_buf s) (LGone q) (made s) (lost s ++ xs))
  end.

Definition a_step {T} (s : astate T) (e : aevent T) : comp (astate T) :=
  let h := a_arcs s in
  match e with
  | CallAdvance n =>
      match a_buf s with
      | BIdle b => Ret (AState h (BWalk b (adv_begin b n)) (a_load s) (made s) (lost s))
      | _ => Ret s
      end
  | DropBuffer =>
      match a_buf s with
      | BIdle b => Ret (AState h (BGone (Some (head_node b, 0))) (a_load s) (made s) (lost s))
      | _ => Ret s
      end
  | StepBuffer => step_buffer s
  | Commit xs =>
      match a_load s with
      | LIdle t => let '(h', n) := arc_new h in Ret (AState h' (a_buf s) (LNew t n xs) (made s) (lost s))
      | _ => Ret s
      end
  | DropLoader =>
      match a_load s with
      | LIdle t => Ret (AState h (a_buf s) (LGone (Some (t, 0))) (made s) (lost s))
      | _ => Ret s
      end
  | StepLoader => step_loader s
  end.

Fixpoint a_run {T} (s : astate T) (es : list (aevent T)) : comp (astate T) :=
  match es with [] => Ret s | e :: es' => s' <- a_step s e ;; a_run s' es' end.
