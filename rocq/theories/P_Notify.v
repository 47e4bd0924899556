(** * P_Notify: properties C42-C44. *)
From Coq Require Import Lia.
From Verif Require Import M_Notify S_Notify L_Notify.

Section C.
  (** [usize] has [modulus] values; 2^64 in the code. *)
  Variable modulus : nat.
  Hypothesis modulus_pos : 0 < modulus.

  (** ** C42 *)
  (** A poll that returned [Ready] polled a wait after whose creation a send took place. *)
  Theorem C42_ready_means_sent s h1 p h2 :
    nreach modulus s -> hist s = h1 ++ EPollEnd p Ready :: h2 ->
    exists w, In (EPollBegin p w) h2 /\ 1 <= sends_since w h2.
  Proof. intros R E. exact (ready_means_sent modulus modulus_pos s R _ _ _ E). Qed.

  (** A poll that began when a send had already taken place returns [Ready]. *)
  Theorem C42_sent_means_ready s h1 p r h2 w h3 :
    nreach modulus s -> hist s = h1 ++ EPollEnd p r :: h2 ++ EPollBegin p w :: h3 ->
    1 <= sends_since w h3 -> sends_since w (h2 ++ EPollBegin p w :: h3) < modulus ->
    r = Ready.
  Proof.
    intros R E S L. destruct r; auto.
    pose proof (pending_means_unsent modulus modulus_pos s R _ _ _ _ _ E L). lia.
  Qed.

  (** Once a poll of [w] has returned [Ready], so do all polls of [w] that begin later. *)
  Theorem C42_stays_ready s h1 p' r h2 w h3 p :
    nreach modulus s -> hist s = h1 ++ EPollEnd p' r :: h2 ++ EPollBegin p' w :: h3 ->
    In (EPollBegin p w) h3 -> In (EPollEnd p Ready) h3 ->
    sends_since w (h2 ++ EPollBegin p' w :: h3) < modulus ->
    r = Ready.
  Proof. intros R E A B L. exact (stays_ready modulus modulus_pos s R _ _ _ _ _ _ _ E A B L). Qed.

  (** ** C43 *)
  Theorem C43_no_lost_wakeup s p w n :
    nreach modulus s ->
    In (EPollBegin p w) (hist s) -> In (EPollEnd p Pending) (hist s) ->
    In (ESendEnd n) (hist s) -> addition_after w n (hist s) ->
    sends_since w (hist s) < modulus ->
    before (ERegister p) (EWake p) (hist s).
  Proof.
    intros R PB PE SE AD L.
    destruct (wake_inv_reach modulus modulus_pos s R p w (or_intror PE) PB L) as [(_ & NA)|B]; auto.
    exfalso. exact (NA n SE AD).
  Qed.

  (** ** C44 *)
  Theorem C44_exclusive s t t' :
    nreach modulus s -> inside_list (threads s t) -> inside_list (threads s t') -> t = t'.
  Proof.
    intros R A B. pose proof (inv_reach modulus modulus_pos s R) as I.
    assert (X : forall c, inside_list c -> holds_lock c) by (intros []; auto).
    apply X, (iv_lock _ _ I) in A. apply X, (iv_lock _ _ I) in B. congruence.
  Qed.

  Theorem C44_remove_never_fails s t : nreach modulus s -> threads s t <> Panicked.
  Proof.
    intros R Q. pose proof (iv_pc _ _ (inv_reach modulus modulus_pos s R) t) as PC. now rewrite Q in PC.
  Qed.

  (** Whatever operation is in progress, some operation in progress can go on. *)
  Theorem C44_no_deadlock s t :
    nreach modulus s -> threads s t <> Idle ->
    exists t' s', threads s t' <> Idle /\ nstep modulus t' s s'.
  Proof.
    intros R N. destruct (complete modulus modulus_pos s t R) as (s' & A & B).
    inversion A as [|t' ? s1 ? NB ST]; subst; [congruence|]. exists t', s1. split; [exact NB|exact ST].
  Qed.

  (** Every operation in progress can be completed without a new one beginning. *)
  Theorem C44_completes s t :
    nreach modulus s -> exists s', nsteps modulus s s' /\ threads s' t = Idle.
  Proof. intros R. exact (complete modulus modulus_pos s t R). Qed.
End C.

(** ** Non-vacuity *)
(** One thread waits and polls, another sends in between, the first polls again. *)
Definition story : list nevent :=
  [EPollEnd 1 Ready; EPollBegin 1 0; ESendEnd 1; EWake 0; EInc; ESendBegin 1; EPollEnd 0 Pending;
   ERegister 0; EPollBegin 0 0; EWait 0].

Ltac tidy R := cbn [version lock slab threads waits next_pid hist length nth Nat.eqb app] in R.

Example story_happens : exists s, nreach 16 s /\ hist s = story /\ slab s = [] /\ lock s = None.
Proof.
  pose proof (nr_init 16) as R.
  eapply nr_step in R; [|eapply (st_wait _ 0); reflexivity]. tidy R.
  eapply nr_step in R; [|eapply (st_wait_load _ 0); reflexivity]. tidy R.
  eapply nr_step in R; [|eapply (st_poll _ 0 _ (w := 0)); [reflexivity|repeat constructor]]. tidy R.
  eapply nr_step in R; [|eapply (st_poll_load1 _ 0); reflexivity]. tidy R.
  eapply nr_step in R; [|eapply (st_poll_lock _ 0); reflexivity]. tidy R.
  eapply nr_step in R; [|eapply (@st_poll_insert _ 0 _ _ _ 7); [reflexivity|intros []]]. tidy R.
  eapply nr_step in R; [|eapply (st_poll_load2 _ 0); reflexivity]. tidy R.
  eapply nr_step in R; [|eapply (st_poll_unlock _ 0); reflexivity]. tidy R.
  eapply nr_step in R; [|eapply (st_send _ 1); reflexivity]. tidy R.
  eapply nr_step in R; [|eapply (st_send_add _ 1); reflexivity]. tidy R.
  eapply nr_step in R; [|eapply (st_send_lock _ 1); reflexivity]. tidy R.
  eapply nr_step in R; [|eapply (@st_send_wake _ 1 _ _ 7 0 [] []); reflexivity]. tidy R.
  eapply nr_step in R; [|eapply (st_send_end _ 1); reflexivity]. tidy R.
  eapply nr_step in R; [|eapply (st_poll _ 0 _ (w := 0)); [reflexivity|repeat constructor]]. tidy R.
  eapply nr_step in R; [|eapply (st_poll_load1 _ 0); reflexivity]. tidy R.
  eexists. split; [exact R|]. repeat split; reflexivity.
Qed.

Example story_meets_C42 :
  sends_since 0 [ESendEnd 1; EWake 0; EInc; ESendBegin 1; EPollEnd 0 Pending; ERegister 0; EPollBegin 0 0; EWait 0] = 1.
Proof. reflexivity. Qed.

Example story_meets_C43 : addition_after 0 1 story /\ sends_since 0 story < 16.
Proof.
  split; [|cbn; lia].
  exists [EPollEnd 1 Ready; EPollBegin 1 0; ESendEnd 1; EWake 0],
    [ESendBegin 1; EPollEnd 0 Pending; ERegister 0; EPollBegin 0 0], [].
  split; reflexivity.
Qed.

(** A thread waiting for the lock while another holds it. *)
Example contention : exists s, nreach 16 s /\ inside_list (threads s 0) /\ threads s 1 = SendLock 1.
Proof.
  pose proof (nr_init 16) as R.
  eapply nr_step in R; [|eapply (st_wait _ 0); reflexivity]. tidy R.
  eapply nr_step in R; [|eapply (st_wait_load _ 0); reflexivity]. tidy R.
  eapply nr_step in R; [|eapply (st_poll _ 0 _ (w := 0)); [reflexivity|repeat constructor]]. tidy R.
  eapply nr_step in R; [|eapply (st_poll_load1 _ 0); reflexivity]. tidy R.
  eapply nr_step in R; [|eapply (st_poll_lock _ 0); reflexivity]. tidy R.
  eapply nr_step in R; [|eapply (st_send _ 1); reflexivity]. tidy R.
  eapply nr_step in R; [|eapply (st_send_add _ 1); reflexivity]. tidy R.
  eexists. split; [exact R|]. cbn. auto.
Qed.

Print Assumptions C42_ready_means_sent.
Print Assumptions C42_sent_means_ready.
Print Assumptions C42_stays_ready.
Print Assumptions C43_no_lost_wakeup.
Print Assumptions C44_exclusive.
Print Assumptions C44_remove_never_fails.
Print Assumptions C44_no_deadlock.
Print Assumptions C44_completes.
