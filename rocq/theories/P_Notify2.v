(** * P_Notify2: property C72, the life of a registered waker. *)
From Coq Require Import Lia.
From Verif Require Import M_Notify S_Notify L_Notify L_Notify2.

Section C.
  Variable modulus : nat.
  Hypothesis modulus_pos : 0 < modulus.

  (** ** Woken at most once, and only for a poll that said [Pending] *)
  Theorem C72_woken_once s later p earlier :
    nreach modulus s -> hist s = later ++ EWake p :: earlier ->
    ~ In (EWake p) later /\ ~ In (EWake p) earlier /\
    In (ERegister p) earlier /\ In (EPollEnd p Pending) earlier.
  Proof.
    intros R E. destruct (wake_event modulus modulus_pos s _ _ _ R E) as (A & B & C).
    split; [exact (wake_once modulus modulus_pos s _ _ _ R E)|auto].
  Qed.

  (** ** Whenever nobody holds the lock, the list holds exactly the wakers owed a wake: one entry for
      every poll that said [Pending] and was not woken yet. *)
  Theorem C72_list_exact s p :
    nreach modulus s -> lock s = None ->
    NoDup (map snd (slab s)) /\
    (In p (map snd (slab s)) <-> In (EPollEnd p Pending) (hist s) /\ ~ In (EWake p) (hist s)).
  Proof.
    intros R L. split; [exact (proj1 (life_reach modulus modulus_pos s R))|exact (registered modulus modulus_pos s p R L)].
  Qed.

  (** ** A poll that said [Ready] leaves nothing behind, even while others are at work. *)
  Theorem C72_ready_leaves_nothing s p :
    nreach modulus s -> In (EPollEnd p Ready) (hist s) ->
    ~ In p (map snd (slab s)) /\ ~ In (EWake p) (hist s).
  Proof. intros R E. destruct (ready_leaves_nothing modulus modulus_pos s p R E) as (A & B & _). auto. Qed.

  (** ** When a send returns, every poll that had said [Pending] by then has been woken, and none of those
      wakers is listed any more, now or ever after. *)
  Theorem C72_send_wakes_all s later n earlier p :
    nreach modulus s -> hist s = later ++ ESendEnd n :: earlier -> In (EPollEnd p Pending) earlier ->
    In (EWake p) earlier /\ ~ In p (map snd (slab s)).
  Proof. intros R E Q. exact (send_empties modulus modulus_pos s n later earlier p R E Q). Qed.

  (** ** Refuted: one entry per wait.  A wait polled again and again without a send in between leaves one more
      waker every time: the list grows without bound though a single [Wait] exists. *)
  Theorem C72_one_entry_per_wait_refuted n :
    exists s, nreach modulus s /\ length (waits s) = 1 /\ length (slab s) = n /\ lock s = None.
  Proof. destruct (pile_up modulus modulus_pos n) as (s & R & W & S & _ & L & _). eauto. Qed.
End C.

(** Two waits, one of them polled twice, then a send that wakes all three wakers, then a poll. *)
Ltac tidy R := cbn [ninit Nat.add Nat.modulo Nat.divmod Nat.sub fst snd incs filter is_inc version lock slab threads waits next_pid hist length nth Nat.eqb app] in R.
(** Forget how a state of rest came about. *)
Ltac rest R :=
  match type of R with nreach _ (NState _ _ _ ?th _ _ _) =>
    let E := fresh "E" in
    assert (E : forall t, th t = Idle) by (intros t; unfold upd; repeat (destruct (Nat.eqb t _)); auto);
    revert R E; generalize th; clear; intros ? R E
  end.
Ltac at_rest := match goal with E : forall t, _ = Idle |- _ => apply E end.
Ltac pending R t w k :=
  eapply nr_step in R; [|eapply (st_poll _ t _ (w := w)); [cbn; at_rest|repeat constructor]]; tidy R;
  eapply nr_step in R; [|eapply (st_poll_load1 _ t); reflexivity]; tidy R;
  eapply nr_step in R; [|eapply (st_poll_lock _ t); reflexivity]; tidy R;
  eapply nr_step in R; [|eapply (@st_poll_insert _ t _ _ _ k); [reflexivity|cbn; intuition discriminate]]; tidy R;
  eapply nr_step in R; [|eapply (st_poll_load2 _ t); reflexivity]; tidy R;
  eapply nr_step in R; [|eapply (st_poll_unlock _ t); reflexivity]; tidy R;
  rest R.

Example C72_case :
  exists s later earlier, nreach 16 s /\ lock s = None /\ slab s = [] /\
    hist s = later ++ EWake 1 :: earlier /\
    later = [EPollEnd 3 Ready; EPollBegin 3 0; ESendEnd 1; EWake 0] /\
    earlier = [EWake 2; EInc; ESendBegin 2] ++
              [EPollEnd 2 Pending; ERegister 2; EPollBegin 2 0; EPollEnd 1 Pending; ERegister 1; EPollBegin 1 1;
               EPollEnd 0 Pending; ERegister 0; EPollBegin 0 0; EWait 1; EWait 0].
Proof.
  pose proof (nr_init 16) as R.
  eapply nr_step in R; [|eapply (st_wait _ 0); reflexivity]. tidy R.
  eapply nr_step in R; [|eapply (st_wait_load _ 0); reflexivity]. tidy R.
  eapply nr_step in R; [|eapply (st_wait _ 1); reflexivity]. tidy R.
  eapply nr_step in R; [|eapply (st_wait_load _ 1); reflexivity]. tidy R. rest R.
  pending R 0 0 5. pending R 1 1 6. pending R 0 0 7.
  eapply nr_step in R; [|eapply (st_send _ 2); cbn; at_rest]. tidy R.
  eapply nr_step in R; [|eapply (st_send_add _ 2); reflexivity]. tidy R.
  eapply nr_step in R; [|eapply (st_send_lock _ 2); reflexivity]. tidy R.
  eapply nr_step in R; [|eapply (@st_send_wake _ 2 _ _ 7 2 [] [(6, 1); (5, 0)]); reflexivity]. tidy R.
  eapply nr_step in R; [|eapply (@st_send_wake _ 2 _ _ 6 1 [] [(5, 0)]); reflexivity]. tidy R.
  eapply nr_step in R; [|eapply (@st_send_wake _ 2 _ _ 5 0 [] []); reflexivity]. tidy R.
  eapply nr_step in R; [|eapply (st_send_end _ 2); reflexivity]. tidy R. rest R.
  eapply nr_step in R; [|eapply (st_poll _ 0 _ (w := 0)); [cbn; at_rest|repeat constructor]]. tidy R.
  eapply nr_step in R; [|eapply (st_poll_load1 _ 0); reflexivity]. tidy R.
  eexists _, [EPollEnd 3 Ready; EPollBegin 3 0; ESendEnd 1; EWake 0],
    ([EWake 2; EInc; ESendBegin 2] ++
     [EPollEnd 2 Pending; ERegister 2; EPollBegin 2 0; EPollEnd 1 Pending; ERegister 1; EPollBegin 1 1;
      EPollEnd 0 Pending; ERegister 0; EPollBegin 0 0; EWait 1; EWait 0]).
  split; [exact R|]. repeat split; reflexivity.
Qed.

(** Three wakers of one wait. *)
Example C72_pile : exists s, nreach 16 s /\ length (waits s) = 1 /\ lock s = None /\ slab s = [(7, 2); (6, 1); (5, 0)].
Proof.
  pose proof (nr_init 16) as R.
  eapply nr_step in R; [|eapply (st_wait _ 0); reflexivity]. tidy R.
  eapply nr_step in R; [|eapply (st_wait_load _ 0); reflexivity]. tidy R. rest R.
  pending R 0 0 5. pending R 0 0 6. pending R 0 0 7.
  eexists. split; [exact R|]. repeat split; reflexivity.
Qed.

Print Assumptions C72_woken_once.
Print Assumptions C72_list_exact.
Print Assumptions C72_ready_leaves_nothing.
Print Assumptions C72_send_wakes_all.
Print Assumptions C72_one_entry_per_wait_refuted.
