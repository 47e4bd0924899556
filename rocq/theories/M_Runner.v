(** * M_Runner: crates/parcom-runners/src/default_runner/sequence.rs,
    sequence/segments.rs and sequence/advance.rs over the generic sequence of
    M_GenSeq, as interleaving transition systems.  Model only; no proofs.
    One consumer task polls the futures; loaders run beside it.  Every atomic
    load, store or addition and every [OnceLock] access is one step.
    Nothing in the repository drives a loader ([Parse::poll] is [todo!()]):
    loaders are any threads that append to the chain, send the signal, and set
    the done flag after the last append, in any order otherwise.
    Simplifications: a poll of [Wait] is two loads of the version
    (notify.rs:55 and 63); insertion into the slab is joined with the second
    load and a send's wake-ups are one step, both being under the lock of
    notify.rs (M_Notify has the lock and the slab in full); a wake-up sets
    [woken], which the start of the next poll clears; the executor may also poll
    without a wake-up.  The history is a ghost: nothing reads it. *)
From Verif Require Export M_GenSeq.

Set Implicit Arguments.

Section Runner.
  Context {T : Type}.

  Inductive revent :=
  | EAppend (seg : list T)             (* a loader appended a segment *)
  | EDone                              (* the done flag was set *)
  | ESend                              (* fetch_add of a send (notify.rs:26) *)
  | ENext                              (* a new [next] future *)
  | EDrop                              (* that future is dropped unfinished *)
  | EWait                              (* the load of [wait()] (notify.rs:34) *)
  | ELook                              (* the second [iter.next()] found nothing (segments.rs:95) *)
  | EReturn (r : option (list T)).     (* Poll::Ready(r) *)

  (** What the consumer shares with the loaders: sequence.rs:44-47 and the
      contents of the [Notify]. *)
  Record shared := Shared {
    sh_heap : heap T;
    sh_tail : nat;
    version : nat;
    done_flag : bool;
    registered : bool;                 (* the task's waker is in the slab *)
    draining : nat;                    (* sends between their addition and their wake-ups *)
    woken : bool
  }.

  Section Steps.
    (** The number of values of [usize]. *)
    Variable modulus : nat.

    (** ** Loaders *)
    Inductive loader_step : shared -> option revent -> shared -> Prop :=
    (* generic/loader.rs:40-48 *)
    | ls_append h tail v r k w seg h' tail' :
        commit_to h tail seg = Ret (h', tail') ->
        loader_step (Shared h tail v false r k w) (Some (EAppend seg)) (Shared h' tail' v false r k w)
    | ls_done h tail v d r k w :
        loader_step (Shared h tail v d r k w) (Some EDone) (Shared h tail v true r k w)
    (* notify.rs:26 *)
    | ls_send h tail v d r k w :
        loader_step (Shared h tail v d r k w) (Some ESend) (Shared h tail (S v mod modulus) d r (S k) w)
    (* notify.rs:27-30 *)
    | ls_drain h tail v d r k w :
        loader_step (Shared h tail v d r (S k) w) None (Shared h tail v d false k (r || w)).

    Definition note (e : option revent) (h : list revent) : list revent :=
      match e with Some e => e :: h | None => h end.

    Definition begin_poll (x : shared) : shared :=
      Shared (sh_heap x) (sh_tail x) (version x) (done_flag x) (registered x) (draining x) false.
    Definition wake_by_ref (x : shared) : shared :=
      Shared (sh_heap x) (sh_tail x) (version x) (done_flag x) (registered x) (draining x) true.
    Definition register (x : shared) : shared :=
      Shared (sh_heap x) (sh_tail x) (version x) (done_flag x) true (draining x) (woken x).

    (** ** DefaultSegments (segments.rs) *)
    Inductive spc :=
    | SIdle                            (* no [next] future *)
    | SParked                          (* a [next] future, between polls *)
    | SFut                             (* 85: OptionFuture::poll; with [Some], the load of notify.rs:55 *)
    | SFut2                            (* 85: notify.rs:60-63 *)
    | SNext1                           (* 87 *)
    | SWait                            (* 91 *)
    | SNext2 (v : nat)                 (* 95; v: the version in [fut] *)
    | SDone (v : nat)                  (* 100 *)
    | SSet (v : nat)                   (* 104-107 *)
    | SPanicked.

    Record sstate := SState {
      s_sh : shared;
      s_iter : giter;                  (* host.iter *)
      s_fut : option nat;              (* the version of the [Wait] in [fut] *)
      s_pc : spc;
      s_hist : list revent             (* newest first *)
    }.

    Inductive sstep : sstate -> sstate -> Prop :=
    | ss_loader x e x' i f c h :
        loader_step x e x' -> sstep (SState x i f c h) (SState x' i f c (note e h))
    (* 56-61 next *)
    | ss_next x i f h :
        sstep (SState x i f SIdle h) (SState x i None SParked (ENext :: h))
    | ss_drop x i f h :
        sstep (SState x i f SParked h) (SState x i None SIdle (EDrop :: h))
    | ss_poll x i f h :
        sstep (SState x i f SParked h) (SState (begin_poll x) i f SFut h)
    (* 85 *)
    | ss_fut_none x i h :
        sstep (SState x i None SFut h) (SState x i None SNext1 h)
    | ss_fut_ready x i v h :
        version x <> v -> sstep (SState x i (Some v) SFut h) (SState x i (Some v) SNext1 h)
    | ss_fut_same x i v h :
        version x = v -> sstep (SState x i (Some v) SFut h) (SState x i (Some v) SFut2 h)
    | ss_fut2_ready x i v h :
        version x <> v -> sstep (SState x i (Some v) SFut2 h) (SState x i (Some v) SNext1 h)
    | ss_fut2_pending x i v h :
        version x = v -> sstep (SState x i (Some v) SFut2 h) (SState (register x) i (Some v) SParked h)
    (* 87-89 *)
    | ss_next1_some x i f h seg i' :
        gnext (sh_heap x) i = Ret (Some seg, i') ->
        sstep (SState x i f SNext1 h) (SState x i' None SIdle (EReturn (Some seg) :: h))
    | ss_next1_none x i f h i' :
        gnext (sh_heap x) i = Ret (None, i') ->
        sstep (SState x i f SNext1 h) (SState x i' f SWait h)
    (* 91 *)
    | ss_wait x i f h :
        sstep (SState x i f SWait h) (SState x i f (SNext2 (version x)) (EWait :: h))
    (* 95-97 *)
    | ss_next2_some x i f v h seg i' :
        gnext (sh_heap x) i = Ret (Some seg, i') ->
        sstep (SState x i f (SNext2 v) h) (SState x i' None SIdle (EReturn (Some seg) :: h))
    | ss_next2_none x i f v h i' :
        gnext (sh_heap x) i = Ret (None, i') ->
        sstep (SState x i f (SNext2 v) h) (SState x i' f (SDone v) (ELook :: h))
    (* 100-102 *)
    | ss_done x i f v h :
        done_flag x = true ->
        sstep (SState x i f (SDone v) h) (SState x i None SIdle (EReturn None :: h))
    | ss_not_done x i f v h :
        done_flag x = false -> sstep (SState x i f (SDone v) h) (SState x i f (SSet v) h)
    (* 104-107 *)
    | ss_set x i f v h :
        sstep (SState x i f (SSet v) h) (SState (wake_by_ref x) i (Some v) SParked h)
    (* a panic inside [iter.next()] *)
    | ss_panic1 x i f h :
        gnext (sh_heap x) i = Panic -> sstep (SState x i f SNext1 h) (SState x i f SPanicked h)
    | ss_panic2 x i f v h :
        gnext (sh_heap x) i = Panic -> sstep (SState x i f (SNext2 v) h) (SState x i f SPanicked h).

    (** sequence.rs:32-33: a new sequence's signal. *)
    Definition fresh (h : heap T) (tail : nat) : shared := Shared h tail 0 false false 0 false.
    (** A source that was done before is done. *)
    Definition start_history (x : shared) : list revent := if done_flag x then [EDone] else [].

    (** segments.rs:31-39: [segments()] is taken of buffer [b], at any point of
        the sequence's life. *)
    Definition sinit (x : shared) (b : gbuffer) : sstate :=
      SState x (gsegments b) None SIdle (start_history x).

    Inductive sreach (x : shared) (b : gbuffer) : sstate -> Prop :=
    | sr_init : sreach x b (sinit x b)
    | sr_step s s' : sreach x b s -> sstep s s' -> sreach x b s'.

    (** ** DefaultSequenceAdvance (advance.rs) *)
    Inductive apc :=
    | AParked                          (* between polls *)
    | AFut                             (* 41 *)
    | AFut2                            (* 41: notify.rs:60-63 *)
    | AWait                            (* 44-48 *)
    | ALoop (a : adv)                  (* 51: the loop of generic/buffer.rs:37-48 *)
    | ACheck (remain : nat)            (* 53 *)
    | AWake                            (* 62-64 *)
    | AReady                           (* Poll::Ready *)
    | APanicked.

    Record astate := AState {
      a_sh : shared;
      a_buf : gbuffer;                 (* sequence.buffer *)
      a_remain : nat;                  (* this.remain *)
      a_fut : option nat;
      a_pc : apc;
      a_hist : list revent
    }.

    Inductive astep : astate -> astate -> Prop :=
    | as_loader x e x' b n f c h :
        loader_step x e x' -> astep (AState x b n f c h) (AState x' b n f c (note e h))
    | as_poll x b n f h :
        astep (AState x b n f AParked h) (AState (begin_poll x) b n f AFut h)
    (* 40 on a future already finished: [unwrap] of [None] *)
    | as_poll_again x b n f h :
        astep (AState x b n f AReady h) (AState (begin_poll x) b n f APanicked h)
    (* 41 *)
    | as_fut_none x b n h :
        astep (AState x b n None AFut h) (AState x b n None AWait h)
    | as_fut_ready x b n v h :
        version x <> v -> astep (AState x b n (Some v) AFut h) (AState x b n (Some v) AWait h)
    | as_fut_same x b n v h :
        version x = v -> astep (AState x b n (Some v) AFut h) (AState x b n (Some v) AFut2 h)
    | as_fut2_ready x b n v h :
        version x <> v -> astep (AState x b n (Some v) AFut2 h) (AState x b n (Some v) AWait h)
    | as_fut2_pending x b n v h :
        version x = v -> astep (AState x b n (Some v) AFut2 h) (AState (register x) b n (Some v) AParked h)
    (* 44-50: [mem::replace] leaves 0 in [this.remain] *)
    | as_wait x b n f h :
        astep (AState x b n f AWait h)
              (AState x b 0 (Some (version x)) (ALoop (adv_begin b n)) (EWait :: h))
    (* 51 *)
    | as_turn x b n f a a' h :
        adv_turn (sh_heap x) a = Ret (inl a') ->
        astep (AState x b n f (ALoop a) h) (AState x b n f (ALoop a') h)
    | as_last x b n f a a' h :
        adv_turn (sh_heap x) a = Ret (inr a') ->
        astep (AState x b n f (ALoop a) h)
              (AState x (fst (adv_end a')) n f (ACheck (snd (adv_end a'))) (ELook :: h))
    | as_loop_panic x b n f a h :
        adv_turn (sh_heap x) a = Panic -> astep (AState x b n f (ALoop a) h) (AState x b n f APanicked h)
    (* 53-60 *)
    | as_all x b n f m h :
        m = n -> astep (AState x b n f (ACheck m) h) (AState x b n None AReady h)
    | as_done x b n f m h :
        m <> n -> done_flag x = true -> astep (AState x b n f (ACheck m) h) (AState x b n None AReady h)
    | as_not_done x b n f m h :
        m <> n -> done_flag x = false -> astep (AState x b n f (ACheck m) h) (AState x b n f AWake h)
    (* 62-64 *)
    | as_wake x b n f h :
        astep (AState x b n f AWake h) (AState (wake_by_ref x) b n f AParked h).

    (** advance.rs:22-28: [advance(n)] on a sequence over buffer [b], at any
        point of its life. *)
    Definition ainit (x : shared) (b : gbuffer) (n : nat) : astate :=
      AState x b n None AParked (start_history x).

    Inductive areach (x : shared) (b : gbuffer) (n : nat) : astate -> Prop :=
    | ar_init : areach x b n (ainit x b n)
    | ar_step s s' : areach x b n s -> astep s s' -> areach x b n s'.
  End Steps.
End Runner.
