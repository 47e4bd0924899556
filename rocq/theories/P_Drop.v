(** * P_Drop: property C68, a load that is dropped before it is done. *)
From Coq Require Import Lia.
From Verif Require Import M_Drop S_GenSeq S_Drop L_GenSeq L_GenSeq2 L_Drop.

Section C68.
  Context {T E G : Type} (src : source T E G).

  (** Exactly what is left, whatever loads were made and dropped before: the
      committed items stay, and the buffer is [left_over]. *)
  Theorem C68_left_over g cs l grow st g' l' tr :
    drop_all src cs (loader_new g) = Ret l ->
    load_dropped src grow st g' l = Ret (l', tr) ->
    exists ss, committed l ss /\ committed l' ss /\
      items (ld_buf l') =
        left_over (progress_of st (src (ld_source l)) (ends src grow l)) (fits src l) (items (ld_buf l)) (accepted tr).
  Proof.
    intros R D. destruct (drop_all_inv src cs _ _ _ _ (linv_new g) R) as (ss & xs & I).
    pose proof (dropped_inv src _ _ _ _ _ _ _ _ I D) as (C' & H').
    exists ss. split; [apply I|]. split; [exact C'|].
    rewrite (holds_items _ _ H'), (holds_items _ _ (proj2 I)). reflexivity.
  Qed.

  (** Nothing is lost if the load is dropped while the source waits before it
      uses its control, or while it writes what fits in place or has nothing
      written before it. *)
  Theorem C68_nothing_lost_partial g cs l grow st g' l' tr :
    drop_all src cs (loader_new g) = Ret l ->
    load_dropped src grow st g' l = Ret (l', tr) ->
    st = BeforeControl \/ (exists n, st = Writing n /\ (fits src l = true \/ items (ld_buf l) = [])) ->
    exists ss, committed l ss /\ committed l' ss /\ items (ld_buf l') = items (ld_buf l) ++ accepted tr.
  Proof.
    intros R D C. destruct (C68_left_over _ _ _ _ _ _ _ _ R D) as (ss & C1 & C2 & B).
    exists ss. split; [auto|split; [auto|]]. rewrite B.
    destruct C as [->|(n & -> & F)].
    - cbn in D. injection D as <- <-. cbn. now rewrite app_nil_r.
    - cbn in D. destruct (src (ld_source l)) eqn:S; cbn.
      + destruct F as [->|Z]; [reflexivity|]. rewrite Z. now destruct (fits src l).
      + injection D as <- <-. cbn. now rewrite app_nil_r.
      + injection D as <- <-. cbn. now rewrite app_nil_r.
  Qed.

  (** Otherwise everything buffered before is gone. *)
  Theorem C68_buffered_lost g cs l grow st g' l' tr n p :
    drop_all src cs (loader_new g) = Ret l ->
    load_dropped src grow st g' l = Ret (l', tr) ->
    st <> BeforeControl -> src (ld_source l) = SRequest n p -> fits src l = false ->
    exists ss, committed l ss /\ committed l' ss /\
      items (ld_buf l') = if match st with Answered => match ends src grow l with Some EndCancel => true | _ => false end | _ => false end
                          then [] else accepted tr.
  Proof.
    intros R D NB S F. destruct (C68_left_over _ _ _ _ _ _ _ _ R D) as (ss & C1 & C2 & B).
    exists ss. split; [auto|split; [auto|]]. rewrite B, F, S.
    destruct st as [|steps|]; [contradiction|reflexivity|].
    cbn in D. apply bind_ret in D as ([[[[res buf] g1] tr0] en] & D1 & D2).
    unfold ends in *. rewrite D1. rewrite S in D1. cbn in D1.
    apply bind_ret in D1 as (w & RQ & RW).
    assert (X : en = EndAdvance \/ en = EndCancel).
    { clear -RW. revert w RW. generalize (@nil (wevent T)).
      induction p as [x k IH|xs k IH|m k IH|k IH|k IH|k IH|f k IH|g0|e g0]; intros tr w RW; cbn [run_writer] in RW.
      - apply bind_ret in RW as ([? ?] & _ & RW). eapply IH; exact RW.
      - apply bind_ret in RW as ([? ?] & _ & RW). eapply IH; exact RW.
      - apply bind_ret in RW as (? & _ & RW). eapply IH; exact RW.
      - apply bind_ret in RW as (? & _ & RW). eapply IH; exact RW.
      - apply bind_ret in RW as (? & _ & RW). eapply IH; exact RW.
      - apply bind_ret in RW as (? & _ & RW). eapply IH; exact RW.
      - apply bind_ret in RW as ([? ?] & _ & RW). eapply IH; exact RW.
      - apply bind_ret in RW as (? & _ & RW). injection RW as _ _ _ <-. auto.
      - apply bind_ret in RW as (? & _ & RW). injection RW as _ _ _ <-. auto. }
    destruct X as [-> | ->]; reflexivity.
  Qed.

  (** A load dropped while the source writes has done a beginning of what the
      whole load does; the more steps, the more of it, up to all. *)
  Theorem C68_interrupted grow g' l l' tr :
    load_dropped src grow Answered g' l = Ret (l', tr) ->
    (forall n, exists l1 tr1 more, load_dropped src grow (Writing n) g' l = Ret (l1, tr1) /\ tr = tr1 ++ more) /\
    (exists N l1, forall n, N <= n -> load_dropped src grow (Writing n) g' l = Ret (l1, tr)).
  Proof.
    intros D. cbn in D. apply bind_ret in D as ([[[[res buf] g1] tr0] en] & D1 & D2). injection D2 as _ <-.
    unfold load_dropped. destruct (src (ld_source l)) as [m p|g0|e g0]; cbn [run_source] in D1.
    - apply bind_ret in D1 as (w & RQ & RW). cbn in RQ, RW. rewrite RQ. cbn [bind]. split.
      + intros n. destruct (run_part_prefix _ n p _ _ _ _ _ _ RW) as (w1 & tr1 & more & -> & ->). cbn. eauto 6.
      + destruct (run_part_all _ p _ _ _ _ _ _ RW) as (N & w1 & H). eexists N, _. intros n LE. rewrite (H n LE). reflexivity.
    - apply bind_ret in D1 as (x & _ & D1). injection D1 as _ _ <- _. split; [intros n; exists (Loader (ld_heap l) (ld_tail l) (ld_buf l) g'), [], []; auto|].
      exists 0. eauto.
    - apply bind_ret in D1 as (x & _ & D1). injection D1 as _ _ <- _. split; [intros n; exists (Loader (ld_heap l) (ld_tail l) (ld_buf l) g'), [], []; auto|].
      exists 0. eauto.
  Qed.
End C68.

(** The source of the repository: [load] and drop the future without polling
    it.  With exactly grown buffers the item of the load before is lost, and
    the later loads do not bring it back. *)
Definition c68_loader : loader nat (list (list nat)) :=
  Loader [None] 0 (Vec [Some 1] 1) [[2]; [3]].

Example C68_reachable :
  drop_all iterator_source [DLoad (fun n => n)] (loader_new [[1]; [2]; [3]]) = Ret c68_loader.
Proof. reflexivity. Qed.

Theorem C68_drop_refuted :
  exists (g : list (list nat)) cs l st l' tr,
    drop_all iterator_source cs (loader_new g) = Ret l /\
    load_dropped iterator_source (fun n => n) st g l = Ret (l', tr) /\
    committed l [] /\ committed l' [] /\
    items (ld_buf l) = [1] /\ accepted tr = [2] /\ items (ld_buf l') = [2] /\
    exists l'', drop_all iterator_source [DLoad (fun n => n); DLoad (fun n => n)] l' = Ret l''
      /\ committed l'' [[2]; [3]] /\ items (ld_buf l'') = [].
Proof.
  exists [[1]; [2]; [3]], [DLoad (fun n => n)], c68_loader, Answered.
  exists (Loader [None] 0 (Vec [Some 2] 1) [[3]]), [PushOk 2]. split; [reflexivity|]. split; [reflexivity|].
  split; [constructor; reflexivity|]. split; [constructor; reflexivity|].
  split; [reflexivity|]. split; [reflexivity|]. split; [reflexivity|].
  exists (Loader [Some ([2], 1); Some ([3], 2); None] 2 vec_new []). split; [reflexivity|]. split; [|reflexivity].
  do 2 (eapply chain_node; [reflexivity|]). apply chain_end. reflexivity.
Qed.

(** What an interrupted source had written stays and is delivered later, even
    if the source starts over. *)
Definition retrying : source nat Never bool :=
  fun again => SRequest 1 (WPush 7 (fun _ => WPush 8 (fun _ => WAdvance again))).

Theorem C68_half_written_kept :
  exists cs l l' tr l'',
    drop_all retrying cs (loader_new false) = Ret l /\
    load_dropped retrying (fun _ => 5) (Writing 1) false l = Ret (l', tr) /\
    items (ld_buf l) = [] /\ accepted tr = [7] /\ items (ld_buf l') = [7] /\
    drop_all retrying [DLoad (fun _ => 5); DForce] l' = Ret l'' /\ committed l'' [[7; 7; 8]].
Proof.
  exists [], (loader_new false), (Loader [None] 0 (Vec [Some 7; None; None; None; None] 1) false), [PushOk 7],
    (Loader [Some ([7; 7; 8], 1); None] 1 vec_new false). split; [reflexivity|]. split; [reflexivity|]. split; [reflexivity|].
  split; [reflexivity|]. split; [reflexivity|]. split; [reflexivity|].
  eapply chain_node; [reflexivity|]. apply chain_end. reflexivity.
Qed.

(** Both conditions of the theorems above occur. *)
Example C68_case_fits :
  exists l l' tr, drop_all retrying [DLoad (fun _ => 5)] (loader_new false) = Ret l
    /\ load_dropped retrying (fun _ => 5) (Writing 1) true l = Ret (l', tr)
    /\ fits retrying l = true /\ items (ld_buf l) = [7; 8] /\ items (ld_buf l') = [7; 8; 7].
Proof. eexists _, _, _. repeat split. Qed.

Example C68_case_lost :
  exists l' tr, load_dropped iterator_source (fun n => n) (Writing 1) [[3]] c68_loader = Ret (l', tr)
    /\ fits iterator_source c68_loader = false /\ items (ld_buf l') = [2].
Proof. eexists _, _. repeat split. Qed.

(** A source that writes how much it has written, interrupted after each step. *)
Definition counting : source nat Never unit :=
  fun _ => SRequest 3 (WPush 7 (fun _ => WLen (fun n => WPush n (fun _ => WAdvance tt)))).
Example C68_interrupted_case :
  (exists l', load_dropped counting (fun n => n) Answered tt (loader_new tt) = Ret (l', [PushOk 7; PushOk 1])) /\
  (exists l', load_dropped counting (fun n => n) (Writing 2) tt (loader_new tt) = Ret (l', [PushOk 7])) /\
  (exists l', load_dropped counting (fun n => n) (Writing 3) tt (loader_new tt) = Ret (l', [PushOk 7; PushOk 1])).
Proof. repeat split; eexists; reflexivity. Qed.

Print Assumptions C68_left_over.
Print Assumptions C68_nothing_lost_partial.
Print Assumptions C68_buffered_lost.
Print Assumptions C68_drop_refuted.
Print Assumptions C68_half_written_kept.
Print Assumptions C68_interrupted.
