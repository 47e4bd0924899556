(** * S_RunnerFull: which wakers must be woken, in terms of logs. *)
From Verif Require Export M_RunnerFull S_Runner.

Section Spec.
  Context {T : Type}.
  Implicit Types (h : list (@fevent T)).

  (** The events that M_Runner has too. *)
  Fixpoint plain h : list (@revent T) :=
    match h with
    | [] => []
    | FE e :: h => e :: plain h
    | _ :: h => plain h
    end.

  (** The poll that the future has last answered with [Poll::Pending], if it has
      not been polled or dropped since.  Its waker is the one that counts. *)
  Fixpoint pending_poll h : option poll_id :=
    match h with
    | [] => None
    | FPending p :: _ => Some p
    | FPoll _ :: _ | FE EDrop :: _ | FE ENext :: _ | FE (EReturn _) :: _ => None
    | _ :: h => pending_poll h
    end.

  (** The waker that poll [p] was given has been woken since. *)
  Definition woken_since (p : poll_id) h : Prop :=
    exists h1 h2, h = h1 ++ FPoll p :: h2 /\ In (FWake p) h1.

  (** Sends that have returned. *)
  Fixpoint sent h : nat :=
    match h with
    | [] => 0
    | FSent :: h => S (sent h)
    | _ :: h => sent h
    end.

  (** Sends under way at the start. *)
  Definition sending (x : @fshared T) : nat :=
    f_sends x + match f_lock x with Some BySend => 1 | _ => 0 end.

  (** The same sequence for M_Runner. *)
  Definition coarse (x : @fshared T) : @shared T :=
    Shared (f_heap x) (f_tail x) (f_version x) (f_done x) false 0 false.
  Definition same_shared (x : @fshared T) (y : @shared T) : Prop :=
    sh_heap y = f_heap x /\ sh_tail y = f_tail x /\ version y = f_version x /\ done_flag y = f_done x.

  (** Where M_Runner is meanwhile. *)
  Definition coarse_pc (c : fspc) : spc :=
    match c with
    | FSIdle => SIdle
    | FSParked => SParked
    | FSFut W55 => SFut
    | FSFut W60 | FSFut W61 | FSFut (W63 _) => SFut2
    | FSFut W67 => SParked
    | FSFut (W64 _) | FSFut W65 => SNext1
    | FSNext1 => SNext1
    | FSWait => SWait
    | FSNext2 v => SNext2 v
    | FSDone v => SDone v
    | FSSet v => SSet v
    | FSWake => SParked
    | FSPanicked => SPanicked
    end.
  Definition coarse_apc (c : fapc) : apc :=
    match c with
    | FAParked => AParked
    | FAFut W55 => AFut
    | FAFut W60 | FAFut W61 | FAFut (W63 _) => AFut2
    | FAFut W67 => AParked
    | FAFut (W64 _) | FAFut W65 => AWait
    | FAWait => AWait
    | FALoop a => ALoop a
    | FACheck n => ACheck n
    | FAWake => AWake
    | FAReady => AReady
    | FAPanicked => APanicked
    end.

  Definition alike (s : @fsstate T) (s' : @sstate T) : Prop :=
    same_shared (fs_sh s) (s_sh s') /\ s_iter s' = fs_iter s /\ s_fut s' = fs_fut s /\
    s_pc s' = coarse_pc (fs_pc s) /\ s_hist s' = plain (fs_log s).
  Definition alike_a (s : @fastate T) (s' : @astate T) : Prop :=
    same_shared (fa_sh s) (a_sh s') /\ a_buf s' = fa_buf s /\ a_remain s' = fa_remain s /\ a_fut s' = fa_fut s /\
    a_pc s' = coarse_apc (fa_pc s) /\ a_hist s' = plain (fa_log s).

  (** So many steps of loaders. *)
  Inductive loaders (modulus : nat) : nat -> @fshared T -> @fshared T -> Prop :=
  | ld_here x : loaders modulus 0 x x
  | ld_step k x e x1 x2 : floader_step modulus x e x1 -> loaders modulus k x1 x2 -> loaders modulus (S k) x x2.
End Spec.
