(** * P_LiveFull: property C91, the parsers of C79 over the whole of Notify. *)
From Coq Require Import Lia.
From Verif Require Import M_LiveFull S_RunnerFull S_Live P_RunnerFull P_Live.

Section Live.
  Context {T O : Type} (p : @looker T O) (modulus : nat).
  Variables (x0 : @fshared T) (b : gbuffer).
  Hypothesis unlocked : f_lock x0 <> Some ByPoll.

  (** Every await in it is one of those of which C91 speaks. *)
  Theorem C91_live_waits l : flreach modulus p x0 b l ->
    match l with
    | FLLook b' _ s | FLMiss b' s => b' = b /\ fsreach modulus x0 b s
    | FLAdvance h _ a => exists s n, fsreach modulus x0 b s /\ fs_log s = h /\ f_lock (fs_sh s) <> Some ByPoll /\
        fareach modulus (fs_sh s) b n a
    end.
  Proof.
    induction 1 as [|l l' R IH St]; [split; [reflexivity|constructor]|]. destruct St.
    - destruct IH as (E & R'). split; [exact E|]. eapply fsr_step; [exact R'|now apply fss_loader].
    - destruct IH as (E & R'). split; [exact E|]. eapply fsr_step; eassumption.
    - destruct IH as (E & R'). assert (R2 : fsreach modulus x0 b s') by (eapply fsr_step; eassumption).
      unfold fafter. destruct (lk_step p st r) as [st'|[n o|]]; [auto| |auto].
      exists s', n. subst. split; [exact R2|]. split; [reflexivity|]. split; [|constructor].
      assert (K : fs_pc s' = FSIdle).
      { destruct H; cbn in *; try reflexivity; try (apply (f_equal (@length _)) in H0; cbn in H0; lia); try discriminate.
        destruct H; cbn in *; try discriminate; apply (f_equal (@length _)) in H0; cbn in H0; lia. }
      destruct (fsreach_inv modulus x0 b unlocked _ R2) as (_ & _ & _ & I). now rewrite K in I.
    - destruct IH as (s & n & R1 & E & L & R2). exists s, n. repeat split; auto. eapply far_step; eassumption.
    - destruct IH as (s & m0 & R1 & E & L & R2). exists s, m0. repeat split; auto. eapply far_step; [exact R2|now apply fas_loader].
    - destruct IH as (E & R'). split; [exact E|]. eapply fsr_step; [exact R'|now apply fss_loader].
  Qed.

  Definition alike_l (l : flstate p) (l' : lstate p) : Prop :=
    match l, l' with
    | FLLook b st s, LLook b' st' s' => b' = b /\ st' = st /\ alike s s'
    | FLAdvance h o a, LAdvance h' o' a' => h' = plain h /\ o' = o /\ alike_a a a'
    | FLMiss b s, LMiss b' s' => b' = b /\ alike s s'
    | _, _ => False
    end.

  (** What the parser takes, what it answers and what is left are those of a run
      of M_Live with the same history, so C79 holds here. *)
  Theorem C91_live_refine y l : same_shared x0 y -> flreach modulus p x0 b l ->
    exists l', lreach modulus p y b l' /\ alike_l l l'.
  Proof.
    intros Y. induction 1 as [|l l1 R (l' & R' & A) St].
    - eexists. split; [constructor|]. cbn. unfold alike. cbn. rewrite (plain_start x0 y Y). auto 10.
    - pose proof (C91_live_waits _ R) as Q. destruct St; destruct l' as [b' st' s0'|h' o' a0'|b' s0']; try contradiction; cbn in A.
      + destruct A as (-> & -> & A). destruct Q as (-> & Q).
        destruct (fsstep_alike modulus x0 _ _ _ (fsreach_inv modulus x0 b unlocked _ Q) A (fss_loader _ _ _ _ _ H)) as (s1' & A1 & S).
        destruct S as [-> |S]; [eexists; split; [exact R'|]; cbn; auto|].
        destruct A as (X & E1 & E2 & E3 & E4). destruct s0' as [y0 i0 f0 c0 h0]. cbn in *. subst.
        destruct (loader_plain modulus _ _ _ h y0 H X) as (y' & X' & [(-> & E)|(e' & L & E)]).
        * eexists. split; [exact R'|]. cbn. unfold alike. cbn. auto 8.
        * eexists. split; [eapply lr_step; [exact R'|apply lv_loader; exact L]|]. cbn. unfold alike. cbn. auto 8.
      + destruct A as (-> & -> & A). destruct Q as (-> & Q).
        destruct (fsstep_alike modulus x0 _ _ _ (fsreach_inv modulus x0 b unlocked _ Q) A H) as (s1' & A1 & S).
        destruct S as [-> |S]; [eexists; split; [exact R'|]; cbn; auto|].
        eexists. split; [eapply lr_step; [exact R'|apply lv_poll; [exact S|]]|cbn; auto].
        destruct A1 as (_ & _ & _ & K & _). rewrite K. intros E. apply H0. now destruct (fs_pc s') as [| |[]| | | | | | |].
      + destruct A as (-> & -> & A). destruct Q as (-> & Q).
        destruct (fsstep_alike modulus x0 _ _ _ (fsreach_inv modulus x0 b unlocked _ Q) A H) as (s1' & A1 & S).
        pose proof A as (_ & _ & _ & _ & E4). pose proof A1 as (X1 & _ & _ & _ & E4').
        rewrite H0 in E4'. cbn in E4'. rewrite <- E4 in E4'.
        destruct S as [-> |S]; [apply (f_equal (@length _)) in E4'; cbn in E4'; lia|].
        eexists. split; [eapply lr_step; [exact R'|apply lv_answer; [exact S|exact E4']]|].
        unfold fafter, after. destruct (lk_step p st r) as [st2|[n o|]]; cbn; auto.
        split; [apply A1|]. split; [reflexivity|]. unfold alike_a. cbn. rewrite (plain_start _ _ X1). auto 10.
      + destruct A as (-> & -> & A). destruct Q as (s & n & Q1 & E & L & Q2).
        destruct (fastep_alike modulus (fs_sh s) _ _ _ (fareach_inv modulus _ b n L _ Q2) A H) as (a1' & A1 & S).
        destruct S as [-> |S]; [eexists; split; [exact R'|]; cbn; auto|].
        eexists. split; [eapply lr_step; [exact R'|apply lv_advance; [exact S|]]|cbn; auto].
        destruct A as (_ & _ & _ & _ & K & _). rewrite K. intros E'. apply H0. now destruct (fa_pc a) as [|[]| | | | | |].
      + destruct A as (-> & -> & (X & E1 & E2 & E3 & E4 & E5)). destruct a0' as [y0 b1 n1 f1 c1 h1]. cbn in *. subst.
        destruct (loader_plain modulus _ _ _ g y0 H X) as (y' & X' & [(-> & E)|(e' & L & E)]).
        * eexists. split; [exact R'|]. cbn. unfold alike_a. cbn. auto 10.
        * eexists. split; [eapply lr_step; [exact R'|apply lv_advanced; exact L]|]. cbn. unfold alike_a. cbn. auto 10.
      + destruct A as (-> & (X & E1 & E2 & E3 & E4)). destruct s0' as [y0 i0 f0 c0 h0]. cbn in *. subst.
        destruct (loader_plain modulus _ _ _ h y0 H X) as (y' & X' & [(-> & E)|(e' & L & E)]).
        * eexists. split; [exact R'|]. cbn. unfold alike. cbn. auto 10.
        * eexists. split; [eapply lr_step; [exact R'|apply lv_missed; exact L]|]. cbn. unfold alike. cbn. auto 10.
  Qed.

  Variable q : list (list T).
  Hypothesis version_small : f_version x0 < modulus.
  Hypothesis start : ahead (f_heap x0) (f_tail x0) b q.
  Hypothesis polite : modest p.

  (** So a success takes exactly what the parser decided on the first segments. *)
  Theorem C91_live_taken h o a : flreach modulus p x0 b (FLAdvance h o a) -> fa_pc a = FAReady ->
    exists n q', witnessed p (returned (plain h)) (inr (VTake n o)) /\
      S_Runner.prefix (returned (plain h)) (q ++ appended (plain h)) /\
      ahead (f_heap (fa_sh a)) (f_tail (fa_sh a)) (fa_buf a) q' /\
      concat q' = skipn n (concat (q ++ appended (plain h) ++ appended (plain (fa_log a)))).
  Proof.
    intros R E. destruct (C91_live_refine (coarse x0) _ (same_coarse x0) R) as ([|h' o' a'|] & R' & A); cbn in A; try contradiction.
    destruct A as (-> & -> & ((Hh & Ht & _) & E1 & _ & _ & K & E5)). rewrite E in K. cbn in K.
    destruct (C79_taken p modulus (coarse x0) b q version_small start polite _ _ _ R' K) as (n & W & P & (q' & Q1 & Q2)).
    rewrite Hh, Ht, E1 in Q1. rewrite E5 in Q2. exists n, q'. auto.
  Qed.

  (** And a miss leaves everything in its place. *)
  Theorem C91_live_missed b' s : flreach modulus p x0 b (FLMiss b' s) ->
    b' = b /\ exists q', ahead (f_heap (fs_sh s)) (f_tail (fs_sh s)) b q' /\ concat q' = concat (q ++ appended (plain (fs_log s))).
  Proof.
    intros R. destruct (C91_live_refine (coarse x0) _ (same_coarse x0) R) as ([| |b'' s'] & R' & A); cbn in A; try contradiction.
    destruct A as (-> & ((Hh & Ht & _) & _ & _ & _ & E5)).
    destruct (C79_missed_partial p modulus (coarse x0) b q version_small start polite _ _ R') as (-> & (q' & Q1 & Q2) & _).
    rewrite Hh, Ht in Q1. rewrite E5 in Q2. split; [reflexivity|]. exists q'. auto.
  Qed.
End Live.

Local Ltac tidy R := cbn [fs_sh fs_iter fs_fut fs_pc fs_poll fs_log fsinit fnote f_heap f_tail f_version f_done f_lock f_slab f_sends
  with_lock with_slab flog numbered gsegments app map snd fst list_max Nat.max fafter lk_step any_looker lk_init
  fa_sh fa_buf fa_remain fa_fut fa_pc fa_poll fa_log fainit] in R.

(** [any_item] is polled, goes pending, and leaves its waker; while a send drains
    the slab it is polled again, finds the segment and takes the item. *)
Example C91_case_live :
  exists h a, flreach 16 any_looker (FShared [None] 0 0 false None [] 0) buffer_new (FLAdvance h 7 a) /\
    fa_pc a = FAReady /\ f_lock (fa_sh a) = Some BySend /\ returned (plain h) = [[7; 8]].
Proof.
  eexists. eexists. split; [|split; [|split]].
  - pose proof (flr_init 16 (@any_looker nat) (FShared (@cons (option (list nat * nat)) None nil) 0 0 false None [] 0) buffer_new) as R. tidy R.
    eapply flr_step in R; [|apply flv_poll; [apply fss_next|discriminate]]. tidy R.
    eapply flr_step in R; [|apply flv_poll; [apply fss_poll|discriminate]]. tidy R.
    eapply flr_step in R; [|apply flv_poll; [apply fss_fut_none|discriminate]]. tidy R.
    eapply flr_step in R; [|apply flv_poll; [eapply fss_next1_none; reflexivity|discriminate]]. tidy R.
    eapply flr_step in R; [|apply flv_poll; [apply fss_wait|discriminate]]. tidy R.
    eapply flr_step in R; [|apply flv_poll; [eapply fss_next2_none; reflexivity|discriminate]]. tidy R.
    eapply flr_step in R; [|apply flv_poll; [apply fss_not_done; reflexivity|discriminate]]. tidy R.
    eapply flr_step in R; [|apply flv_poll; [apply fss_set|discriminate]]. tidy R.
    eapply flr_step in R; [|apply flv_poll; [apply fss_wake|discriminate]]. tidy R.
    eapply flr_step in R; [|apply flv_poll; [apply fss_poll|discriminate]]. tidy R.
    eapply flr_step in R; [|apply flv_poll; [apply fss_fut; apply ws_same; reflexivity|discriminate]]. tidy R.
    eapply flr_step in R; [|apply flv_poll; [apply fss_fut; apply ws_lock; reflexivity|discriminate]]. tidy R.
    eapply flr_step in R; [|apply flv_poll; [apply fss_fut; apply (ws_insert _ _ _ 0); cbn; tauto|discriminate]]. tidy R.
    eapply flr_step in R; [|apply flv_poll; [apply fss_fut; apply ws_same2; reflexivity|discriminate]]. tidy R.
    eapply flr_step in R; [|apply flv_poll; [eapply fss_fut_pending; apply ws_pending|discriminate]]. tidy R.
    eapply flr_step in R; [|apply flv_loader; apply fl_append with (seg := [7; 8]); reflexivity]. tidy R.
    eapply flr_step in R; [|apply flv_loader; apply fl_add]. tidy R.
    eapply flr_step in R; [|apply flv_loader; apply fl_lock]. tidy R.
    eapply flr_step in R; [|apply flv_poll; [apply fss_poll|discriminate]]. tidy R.
    eapply flr_step in R; [|apply flv_poll; [eapply fss_fut_ready; apply ws_differs; discriminate|discriminate]]. tidy R.
    eapply flr_step in R; [|eapply flv_answer with (r := Some [7; 8]); [eapply fss_next1_some; reflexivity|reflexivity]]. tidy R.
    eapply flr_step in R; [|apply flv_advance; [apply fas_poll|discriminate]]. tidy R.
    eapply flr_step in R; [|apply flv_advance; [apply fas_fut_none|discriminate]]. tidy R.
    eapply flr_step in R; [|apply flv_advance; [apply fas_wait|discriminate]]. tidy R.
    eapply flr_step in R; [|apply flv_advance; [eapply fas_last; reflexivity|discriminate]]. tidy R.
    eapply flr_step in R; [|apply flv_advance; [apply fas_all; reflexivity|discriminate]]. tidy R. exact R.
  - reflexivity.
  - reflexivity.
  - reflexivity.
Qed.

Print Assumptions C91_live_waits.
Print Assumptions C91_live_refine.
Print Assumptions C91_live_taken.
Print Assumptions C91_live_missed.
