(** * M_RunnerFull: the futures of M_Runner over the [Notify] in full:
    crates/parcom-runners/src/default_runner/sequence/segments.rs and advance.rs
    with crates/parcom-internals/src/future/notify.rs, every lock, unlock, slab
    operation and wake-up being a step of its own.  Model only; no proofs.
    Loaders are any threads, as in M_Runner; the sends under way are counted, not
    named.  Polls are numbered and each is given a waker of its own: that a later
    poll may come with the same waker only means more wake-ups.  Simplifications:
    those of M_Notify for the slab and the wakers; [OptionFuture] forwards.  The
    log is a ghost: nothing reads it. *)
From Verif Require Export M_Runner.

Set Implicit Arguments.

Section Full.
  Context {T : Type}.

  Definition poll_id := nat.

  Inductive fevent :=
  | FE (e : @revent T)                 (* an event of M_Runner *)
  | FPoll (p : poll_id)                (* poll p begins *)
  | FPending (p : poll_id)             (* poll p returns Poll::Pending *)
  | FWake (p : poll_id)                (* the waker of poll p is woken *)
  | FSent.                             (* a send returns *)

  (** Who holds the lock of notify.rs:14. *)
  Inductive holder := ByPoll | BySend.

  Record fshared := FShared {
    f_heap : heap T;
    f_tail : nat;
    f_version : nat;
    f_done : bool;
    f_lock : option holder;
    f_slab : list (nat * poll_id);
    f_sends : nat                      (* sends between their addition (26) and their lock (27) *)
  }.

  Definition with_lock (x : fshared) (l : option holder) : fshared :=
    FShared (f_heap x) (f_tail x) (f_version x) (f_done x) l (f_slab x) (f_sends x).
  Definition with_slab (x : fshared) (s : list (nat * poll_id)) : fshared :=
    FShared (f_heap x) (f_tail x) (f_version x) (f_done x) (f_lock x) s (f_sends x).

  Section Steps.
    (** The number of values of [usize]. *)
    Variable modulus : nat.

    (** ** Loaders *)
    Inductive floader_step : fshared -> option fevent -> fshared -> Prop :=
    (* generic/loader.rs:40-48 *)
    | fl_append h tail v l sl k seg h' tail' :
        commit_to h tail seg = Ret (h', tail') ->
        floader_step (FShared h tail v false l sl k) (Some (FE (EAppend seg))) (FShared h' tail' v false l sl k)
    | fl_done h tail v d l sl k :
        floader_step (FShared h tail v d l sl k) (Some (FE EDone)) (FShared h tail v true l sl k)
    (* notify.rs:26 *)
    | fl_add h tail v d l sl k :
        floader_step (FShared h tail v d l sl k) (Some (FE ESend)) (FShared h tail (S v mod modulus) d l sl (S k))
    (* notify.rs:27 *)
    | fl_lock h tail v d sl k :
        floader_step (FShared h tail v d None sl (S k)) None (FShared h tail v d (Some BySend) sl k)
    (* notify.rs:28-30 *)
    | fl_wake h tail v d sl1 key p sl2 k :
        floader_step (FShared h tail v d (Some BySend) (sl1 ++ (key, p) :: sl2) k) (Some (FWake p))
                     (FShared h tail v d (Some BySend) (sl1 ++ sl2) k)
    | fl_end h tail v d k :
        floader_step (FShared h tail v d (Some BySend) [] k) (Some FSent) (FShared h tail v d None [] k).

    Definition fnote (e : option fevent) (h : list fevent) : list fevent :=
      match e with Some e => e :: h | None => h end.

    (** ** Wait::poll (notify.rs:51-70) *)
    Inductive wpc :=
    | W55                              (* the first load *)
    | W60                              (* the lock *)
    | W61                              (* insert; lock held *)
    | W63 (key : nat)                  (* the second load; lock held *)
    | W64 (key : nat)                  (* remove; lock held *)
    | W65                              (* end of the scope of [wakers], ready; lock held *)
    | W67.                             (* drop(wakers), pending; lock held *)

    Inductive wnext := WGo (c : wpc) | WReady | WPending | WPanic.

    (** A step of poll [p] of a [Wait] of version [v]. *)
    Inductive wstep (p : poll_id) (v : nat) (x : fshared) : wpc -> fshared -> wnext -> Prop :=
    | ws_differs : f_version x <> v -> wstep p v x W55 x WReady
    | ws_same : f_version x = v -> wstep p v x W55 x (WGo W60)
    | ws_lock : f_lock x = None -> wstep p v x W60 (with_lock x (Some ByPoll)) (WGo W61)
    | ws_insert key : ~ In key (map fst (f_slab x)) ->
        wstep p v x W61 (with_slab x ((key, p) :: f_slab x)) (WGo (W63 key))
    | ws_differs2 key : f_version x <> v -> wstep p v x (W63 key) x (WGo (W64 key))
    | ws_same2 key : f_version x = v -> wstep p v x (W63 key) x (WGo W67)
    | ws_remove key : In key (map fst (f_slab x)) ->
        wstep p v x (W64 key) (with_slab x (filter (fun e => negb (Nat.eqb (fst e) key)) (f_slab x))) (WGo W65)
    | ws_remove_panic key : ~ In key (map fst (f_slab x)) -> wstep p v x (W64 key) x WPanic
    | ws_ready : wstep p v x W65 (with_lock x None) WReady
    | ws_pending : wstep p v x W67 (with_lock x None) WPending.

    (** ** DefaultSegments (segments.rs) *)
    Inductive fspc :=
    | FSIdle
    | FSParked
    | FSFut (c : wpc)                  (* 85 *)
    | FSNext1                          (* 87 *)
    | FSWait                           (* 91 *)
    | FSNext2 (v : nat)                (* 95 *)
    | FSDone (v : nat)                 (* 100 *)
    | FSSet (v : nat)                  (* 104 *)
    | FSWake                           (* 105-107 *)
    | FSPanicked.

    Record fsstate := FS {
      fs_sh : fshared;
      fs_iter : giter;
      fs_fut : option nat;
      fs_pc : fspc;
      fs_poll : poll_id;               (* the last poll *)
      fs_log : list fevent             (* newest first *)
    }.

    Inductive fsstep : fsstate -> fsstate -> Prop :=
    | fss_loader x e x' i f c p h :
        floader_step x e x' -> fsstep (FS x i f c p h) (FS x' i f c p (fnote e h))
    | fss_next x i f p h :
        fsstep (FS x i f FSIdle p h) (FS x i None FSParked p (FE ENext :: h))
    | fss_drop x i f p h :
        fsstep (FS x i f FSParked p h) (FS x i None FSIdle p (FE EDrop :: h))
    | fss_poll x i f p h :
        fsstep (FS x i f FSParked p h) (FS x i f (FSFut W55) (S p) (FPoll (S p) :: h))
    (* 85 *)
    | fss_fut_none x i p h :
        fsstep (FS x i None (FSFut W55) p h) (FS x i None FSNext1 p h)
    | fss_fut x i v c p h x' c' :
        wstep p v x c x' (WGo c') -> fsstep (FS x i (Some v) (FSFut c) p h) (FS x' i (Some v) (FSFut c') p h)
    | fss_fut_ready x i v c p h x' :
        wstep p v x c x' WReady -> fsstep (FS x i (Some v) (FSFut c) p h) (FS x' i (Some v) FSNext1 p h)
    | fss_fut_pending x i v c p h x' :
        wstep p v x c x' WPending ->
        fsstep (FS x i (Some v) (FSFut c) p h) (FS x' i (Some v) FSParked p (FPending p :: h))
    | fss_fut_panic x i v c p h x' :
        wstep p v x c x' WPanic -> fsstep (FS x i (Some v) (FSFut c) p h) (FS x' i (Some v) FSPanicked p h)
    (* 87-89 *)
    | fss_next1_some x i f p h seg i' :
        gnext (f_heap x) i = Ret (Some seg, i') ->
        fsstep (FS x i f FSNext1 p h) (FS x i' None FSIdle p (FE (EReturn (Some seg)) :: h))
    | fss_next1_none x i f p h i' :
        gnext (f_heap x) i = Ret (None, i') ->
        fsstep (FS x i f FSNext1 p h) (FS x i' f FSWait p h)
    (* 91 *)
    | fss_wait x i f p h :
        fsstep (FS x i f FSWait p h) (FS x i f (FSNext2 (f_version x)) p (FE EWait :: h))
    (* 95-97 *)
    | fss_next2_some x i f v p h seg i' :
        gnext (f_heap x) i = Ret (Some seg, i') ->
        fsstep (FS x i f (FSNext2 v) p h) (FS x i' None FSIdle p (FE (EReturn (Some seg)) :: h))
    | fss_next2_none x i f v p h i' :
        gnext (f_heap x) i = Ret (None, i') ->
        fsstep (FS x i f (FSNext2 v) p h) (FS x i' f (FSDone v) p (FE ELook :: h))
    (* 100-102 *)
    | fss_done x i f v p h :
        f_done x = true ->
        fsstep (FS x i f (FSDone v) p h) (FS x i None FSIdle p (FE (EReturn None) :: h))
    | fss_not_done x i f v p h :
        f_done x = false -> fsstep (FS x i f (FSDone v) p h) (FS x i f (FSSet v) p h)
    (* 104 *)
    | fss_set x i f v p h :
        fsstep (FS x i f (FSSet v) p h) (FS x i (Some v) FSWake p h)
    (* 105-107 *)
    | fss_wake x i f p h :
        fsstep (FS x i f FSWake p h) (FS x i f FSParked p (FPending p :: FWake p :: h))
    | fss_panic1 x i f p h :
        gnext (f_heap x) i = Panic -> fsstep (FS x i f FSNext1 p h) (FS x i f FSPanicked p h)
    | fss_panic2 x i f v p h :
        gnext (f_heap x) i = Panic -> fsstep (FS x i f (FSNext2 v) p h) (FS x i f FSPanicked p h).

    (** Polls are numbered from behind those whose wakers are there. *)
    Definition numbered (x : fshared) : poll_id := list_max (map snd (f_slab x)).
    Definition flog (x : fshared) : list fevent := if f_done x then [FE EDone] else [].

    (** segments.rs:31-39 *)
    Definition fsinit (x : fshared) (b : gbuffer) : fsstate :=
      FS x (gsegments b) None FSIdle (numbered x) (flog x).

    Inductive fsreach (x : fshared) (b : gbuffer) : fsstate -> Prop :=
    | fsr_init : fsreach x b (fsinit x b)
    | fsr_step s s' : fsreach x b s -> fsstep s s' -> fsreach x b s'.

    (** ** DefaultSequenceAdvance (advance.rs) *)
    Inductive fapc :=
    | FAParked
    | FAFut (c : wpc)                  (* 41 *)
    | FAWait                           (* 44-48 *)
    | FALoop (a : adv)                 (* 51 *)
    | FACheck (remain : nat)           (* 53 *)
    | FAWake                           (* 62-64 *)
    | FAReady
    | FAPanicked.

    Record fastate := FA {
      fa_sh : fshared;
      fa_buf : gbuffer;
      fa_remain : nat;
      fa_fut : option nat;
      fa_pc : fapc;
      fa_poll : poll_id;
      fa_log : list fevent
    }.

    Inductive fastep : fastate -> fastate -> Prop :=
    | fas_loader x e x' b n f c p h :
        floader_step x e x' -> fastep (FA x b n f c p h) (FA x' b n f c p (fnote e h))
    | fas_poll x b n f p h :
        fastep (FA x b n f FAParked p h) (FA x b n f (FAFut W55) (S p) (FPoll (S p) :: h))
    | fas_poll_again x b n f p h :
        fastep (FA x b n f FAReady p h) (FA x b n f FAPanicked (S p) (FPoll (S p) :: h))
    (* 41 *)
    | fas_fut_none x b n p h :
        fastep (FA x b n None (FAFut W55) p h) (FA x b n None FAWait p h)
    | fas_fut x b n v c p h x' c' :
        wstep p v x c x' (WGo c') -> fastep (FA x b n (Some v) (FAFut c) p h) (FA x' b n (Some v) (FAFut c') p h)
    | fas_fut_ready x b n v c p h x' :
        wstep p v x c x' WReady -> fastep (FA x b n (Some v) (FAFut c) p h) (FA x' b n (Some v) FAWait p h)
    | fas_fut_pending x b n v c p h x' :
        wstep p v x c x' WPending ->
        fastep (FA x b n (Some v) (FAFut c) p h) (FA x' b n (Some v) FAParked p (FPending p :: h))
    | fas_fut_panic x b n v c p h x' :
        wstep p v x c x' WPanic -> fastep (FA x b n (Some v) (FAFut c) p h) (FA x' b n (Some v) FAPanicked p h)
    (* 44-50 *)
    | fas_wait x b n f p h :
        fastep (FA x b n f FAWait p h)
               (FA x b 0 (Some (f_version x)) (FALoop (adv_begin b n)) p (FE EWait :: h))
    (* 51 *)
    | fas_turn x b n f a a' p h :
        adv_turn (f_heap x) a = Ret (inl a') ->
        fastep (FA x b n f (FALoop a) p h) (FA x b n f (FALoop a') p h)
    | fas_last x b n f a a' p h :
        adv_turn (f_heap x) a = Ret (inr a') ->
        fastep (FA x b n f (FALoop a) p h)
               (FA x (fst (adv_end a')) n f (FACheck (snd (adv_end a'))) p (FE ELook :: h))
    | fas_loop_panic x b n f a p h :
        adv_turn (f_heap x) a = Panic -> fastep (FA x b n f (FALoop a) p h) (FA x b n f FAPanicked p h)
    (* 53-60 *)
    | fas_all x b n f m p h :
        m = n -> fastep (FA x b n f (FACheck m) p h) (FA x b n None FAReady p h)
    | fas_done x b n f m p h :
        m <> n -> f_done x = true -> fastep (FA x b n f (FACheck m) p h) (FA x b n None FAReady p h)
    | fas_not_done x b n f m p h :
        m <> n -> f_done x = false -> fastep (FA x b n f (FACheck m) p h) (FA x b n f FAWake p h)
    (* 62-64 *)
    | fas_wake x b n f p h :
        fastep (FA x b n f FAWake p h) (FA x b n f FAParked p (FPending p :: FWake p :: h)).

    (** advance.rs:22-28 *)
    Definition fainit (x : fshared) (b : gbuffer) (n : nat) : fastate :=
      FA x b n None FAParked (numbered x) (flog x).

    Inductive fareach (x : fshared) (b : gbuffer) (n : nat) : fastate -> Prop :=
    | far_init : fareach x b n (fainit x b n)
    | far_step s s' : fareach x b n s -> fastep s s' -> fareach x b n s'.
  End Steps.
End Full.
