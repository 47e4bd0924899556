(** * P_Runner: properties C56-C59, C64.
    [ahead hp tail b q]: the segments [q] are ahead of buffer [b] at the start. *)
From Coq Require Import Lia.
From Verif Require Import S_Runner L_Runner.

Section Theorems.
  Context {T : Type}.
  (** The number of values of [usize] and the sequence at the start, which may
      be any point of its life. *)
  Variables (modulus : nat) (x0 : @shared T) (b : gbuffer) (q : list (list T)).
  Hypothesis version_small : version x0 < modulus.
  Hypothesis start : ahead (sh_heap x0) (sh_tail x0) b q.

  Let positive : 0 < modulus.
  Proof. lia. Qed.

  Let segs := sreach modulus x0 b.

  (** ** C56 *)
  Theorem C56_in_order s : segs s -> prefix (returned (s_hist s)) (q ++ appended (s_hist s)).
  Proof.
    intros R. destruct (i_iter _ _ _ _ (sreach_inv modulus _ q positive _ _ _ eq_refl version_small start R)) as (ss & _ & _ & E).
    now exists (queue_of (it_offset (s_iter s)) ss).
  Qed.

  (** A poll that looks while a segment is there returns the next one. *)
  Theorem C56_none_skipped s seg rest : segs s ->
    returned (s_hist s) ++ seg :: rest = q ++ appended (s_hist s) ->
    (s_pc s = SNext1 \/ exists v, s_pc s = SNext2 v) ->
    exists i', gnext (sh_heap (s_sh s)) (s_iter s) = Ret (Some seg, i').
  Proof.
    intros R E _. destruct (i_iter _ _ _ _ (sreach_inv modulus _ q positive _ _ _ eq_refl version_small start R)) as (ss & C & O & E').
    rewrite <- E in E'. apply app_inv_head in E'. pose proof (gnext_ok _ _ _ _ C O) as G.
    destruct ss as [|s0 ss]; cbn in E'; [discriminate|]. injection E' as <- _.
    destruct G as (m & G & _). eauto.
  Qed.

  Theorem C56_no_panic s : segs s -> s_pc s <> SPanicked.
  Proof.
    intros R F. pose proof (i_pc _ _ _ _ (sreach_inv modulus _ q positive _ _ _ eq_refl version_small start R)) as P.
    rewrite F in P. exact P.
  Qed.

  (** ** C57 *)
  (** When the end is reported, the source is done and everything appended before
      the second look of that poll has been returned; if the source was done by
      then, nothing is missing, ever after. *)
  Theorem C57_end_partial s h1 h2 : segs s -> s_hist s = h1 ++ EReturn None :: h2 ->
    In EDone h2 /\ returned h2 = q ++ appended (before_look h2) /\
    (In EDone (before_look h2) -> returned (s_hist s) = q ++ appended (s_hist s)).
  Proof.
    intros R E. pose proof (sreach_inv modulus _ q positive _ _ _ eq_refl version_small start R) as I.
    pose proof (i_order _ _ _ _ I) as O. pose proof O as O1. rewrite E in O1.
    destruct (orderly_none _ _ _ O1) as (D & A). split; [auto|]. split; [auto|]. intros D'.
    destruct (C56_in_order s R) as (c & P).
    destruct (before_look_split h2) as (h3 & E3).
    assert (S : s_hist s = (h1 ++ EReturn None :: h3) ++ before_look h2).
    { rewrite E, <- app_assoc. cbn. now rewrite <- E3. }
    rewrite S in O. pose proof (orderly_done _ _ _ O D') as Q. rewrite <- S in Q.
    rewrite Q, <- A in P. rewrite Q, <- A. rewrite E in P at 1.
    rewrite returned_app in P. cbn in P. rewrite <- app_assoc in P.
    assert (N : returned h1 ++ c = []).
    { apply (app_inv_head (returned h2)). now rewrite app_nil_r. }
    apply app_eq_nil in N. destruct N as (N & _). rewrite E, returned_app, N. cbn. now rewrite app_nil_r.
  Qed.

  (** ** C58 *)
  (** A [next] future that would stay pending has seen everything whose signal
      was sent. *)
  Theorem C58_seen s v : segs s -> s_pc s = SParked -> s_fut s = Some v -> version (s_sh s) = v ->
    sends_since_wait (s_hist s) < modulus ->
    prefix (q ++ appended (before_send (s_hist s))) (returned (s_hist s)) /\ ~ In EDone (before_send (s_hist s)).
  Proof.
    intros R P F V L. pose proof (sreach_inv modulus _ q positive _ _ _ eq_refl version_small start R) as [[D X] _ _ I _].
    rewrite P, F in I. destruct I as (W & (c & S) & O). unfold waited in W. unfold sends_since_wait in L.
    pose proof (sends_before_wait (s_hist s)) as B.
    assert (E' : version x0 + sends (before_wait (s_hist s)) = version x0 + sends (s_hist s)) by (apply (mod_same modulus); try lia; congruence).
    assert (E : sends (before_wait (s_hist s)) = sends (s_hist s)) by lia.
    destruct (send_before_wait _ (eq_sym E)) as (h1 & E1). unfold open_then in O. rewrite E1 in O, S.
    split.
    - rewrite appended_app, !app_assoc, <- app_assoc in S. rewrite <- S. rewrite <- !app_assoc. eexists. rewrite <- !app_assoc. reflexivity.
    - intros Q. apply O, in_or_app. auto.
  Qed.

  (** After a send since its [wait()], a pending [next] future has been woken or
      is about to be, by the send still under way. *)
  Theorem C58_woken s : segs s -> s_pc s = SParked -> s_fut s <> None ->
    0 < sends_since_wait (s_hist s) < modulus ->
    woken (s_sh s) = true \/ (registered (s_sh s) = true /\ 0 < draining (s_sh s)).
  Proof.
    intros R P F (L1 & L2). pose proof (i_wake _ _ _ _ (sreach_inv modulus _ q positive _ _ _ eq_refl version_small start R)) as W.
    destruct (woken (s_sh s)) eqn:K; auto. right. destruct (W P F K L2). split; [auto|lia].
  Qed.

  (** Polled then, it returns the next segment. *)
  Theorem C58_then_returns s v seg rest : segs s -> s_pc s = SParked -> s_fut s = Some v -> version (s_sh s) <> v ->
    returned (s_hist s) ++ seg :: rest = q ++ appended (s_hist s) ->
    exists s', segs s' /\ s_hist s' = EReturn (Some seg) :: s_hist s.
  Proof.
    intros R P F V E. destruct s as [x i f c h]. cbn [s_sh s_iter s_fut s_pc s_hist] in *. subst c f.
    assert (R1 : segs (SState (begin_poll x) i (Some v) SFut h)) by (eapply sr_step; [exact R|constructor]).
    assert (R2 : segs (SState (begin_poll x) i (Some v) SNext1 h)) by (eapply sr_step; [exact R1|now constructor]).
    destruct (C56_none_skipped _ seg rest R2) as (i' & G); cbn; auto. cbn in G.
    eexists. split; [eapply sr_step; [exact R2|apply ss_next1_some with (seg := seg) (i' := i'); exact G]|]. reflexivity.
  Qed.

  (** ** C59 *)
  Variable n : nat.
  Let adv := areach modulus x0 b n.

  (** The sequence handed back is the original one advanced by exactly [k]. *)
  Definition advanced_by (k : nat) (s : @astate T) : Prop :=
    exists q', ahead (sh_heap (a_sh s)) (sh_tail (a_sh s)) (a_buf s) q'
      /\ concat q' = skipn k (all_items q (a_hist s)).

  Lemma at_item_advanced s k : at_item q (a_sh s) (head_offset (a_buf s)) (head_node (a_buf s)) k (a_hist s) ->
    advanced_by k s.
  Proof.
    intros (ss & C & O & E & _). exists (queue_of (head_offset (a_buf s)) ss). split.
    - exists ss. split; [auto|]. destruct ss; cbn in *; auto.
    - now rewrite queue_concat.
  Qed.

  (** Exactly what [advance] does: as far as the items there at the end of the
      first look allow, and not beyond [n]. *)
  Theorem C59_exact_partial s : adv s -> a_pc s = AReady ->
    exists h0, before_first_look (a_hist s) = Some h0
      /\ advanced_by (Nat.min n (length (all_items q h0))) s.
  Proof.
    intros R P. pose proof (ai_pc _ _ _ _ _ (areach_inv modulus _ q n positive _ _ _ eq_refl version_small start R)) as I.
    rewrite P in I. destruct I as (A & _ & B). unfold reached_item in A.
    destruct (before_first_look (a_hist s)) as [h0|] eqn:E; [|congruence].
    exists h0. split; [auto|]. now apply at_item_advanced.
  Qed.

  (** With enough items there by then, it is right. *)
  Theorem C59_enough_partial s h0 : adv s -> a_pc s = AReady -> before_first_look (a_hist s) = Some h0 ->
    n <= length (all_items q h0) -> advanced_by n s.
  Proof.
    intros R P E L. destruct (C59_exact_partial s R P) as (h & E' & A).
    rewrite E in E'. injection E' as <-. now rewrite Nat.min_l in A.
  Qed.

  Lemma first_look_split (h : list (@revent T)) : forall h0, before_first_look h = Some h0 -> exists h1, h = h1 ++ h0.
  Proof.
    induction h as [|e h IH]; cbn; intros h0 E; [discriminate|].
    destruct (before_first_look h) as [h2|].
    - injection E as <-. destruct (IH _ eq_refl) as (h1 & ->). now exists (e :: h1).
    - destruct e; try discriminate. injection E as <-. now exists [ELook].
  Qed.

  (** With the source done by then, it is right: all items if fewer than [n]. *)
  Theorem C59_done_partial s h0 : adv s -> a_pc s = AReady -> before_first_look (a_hist s) = Some h0 ->
    In EDone h0 -> advanced_by n s.
  Proof.
    intros R P E D. destruct (C59_exact_partial s R P) as (h & E' & q' & A & B).
    rewrite E in E'. injection E' as <-. exists q'. split; [auto|]. rewrite B.
    pose proof (ai_order _ _ _ _ _ (areach_inv modulus _ q n positive _ _ _ eq_refl version_small start R)) as O.
    destruct (first_look_split _ _ E) as (h1 & H). unfold all_items. rewrite H in O |- *.
    rewrite (orderly_done _ _ _ O D). fold (all_items q h0).
    destruct (Nat.le_ge_cases n (length (all_items q h0))).
    - now rewrite Nat.min_l.
    - rewrite Nat.min_r by auto. now rewrite !skipn_all2.
  Qed.

  (** Only a poll after the end panics. *)
  Theorem C59_no_panic_partial s s' : adv s -> a_pc s <> APanicked -> astep modulus s s' -> a_pc s' = APanicked ->
    a_pc s = AReady.
  Proof.
    intros R P St F. destruct St; cbn in *; try congruence.
    pose proof (ai_pc _ _ _ _ _ (areach_inv modulus _ q n positive _ _ _ eq_refl version_small start R)) as I.
    destruct I as (k & A & _). cbn in A. now destruct (turn_never_panics _ _ _ _ _ A).
  Qed.

  (** ** C64 *)
  Theorem C64_woken s : adv s -> a_pc s = AParked -> a_fut s <> None ->
    0 < sends_since_wait (a_hist s) < modulus ->
    woken (a_sh s) = true \/ (registered (a_sh s) = true /\ 0 < draining (a_sh s)).
  Proof.
    intros R P F (L1 & L2). pose proof (ai_wake _ _ _ _ _ (areach_inv modulus _ q n positive _ _ _ eq_refl version_small start R)) as W.
    destruct (woken (a_sh s)) eqn:K; auto. right. destruct (W P F K L2). split; [auto|lia].
  Qed.

  Lemma loop_ends ss : forall x bf f a h, adv (AState x bf 0 f (ALoop a) h) ->
    chain (sh_heap x) (ad_node a) ss (sh_tail x) -> off_ok (ad_offset a) ss -> ad_remain a = 0 ->
    exists bf', adv (AState x bf' 0 f (ACheck 0) (ELook :: h)).
  Proof.
    induction ss as [|s0 ss IH]; intros x bf f a h R C O Z;
      destruct (adv_turn_ok _ _ _ _ C O) as (r & E & P); destruct r as [a'|a'].
    - destruct P as (? & ? & ? & _). discriminate.
    - destruct P as (ss' & _ & _ & _ & Z'). exists (fst (adv_end a')).
      eapply ar_step; [exact R|]. replace (ACheck 0) with (ACheck (snd (adv_end a'))) by (cbn; f_equal; lia). now apply as_last.
    - destruct P as (s1 & ss1 & Q & C' & O' & _ & Z'). injection Q as <- <-.
      apply (IH x bf f a' h); auto.
      + eapply ar_step; [exact R|]. now apply as_turn.
      + rewrite O'. destruct ss; cbn; lia.
      + lia.
    - destruct P as (ss' & _ & _ & _ & Z'). exists (fst (adv_end a')).
      eapply ar_step; [exact R|]. replace (ACheck 0) with (ACheck (snd (adv_end a'))) by (cbn; f_equal; lia). now apply as_last.
  Qed.

  (** Polled after a send, it finishes. *)
  Theorem C64_then_finishes s v : adv s -> a_pc s = AParked -> a_fut s = Some v -> version (a_sh s) <> v ->
    before_first_look (a_hist s) <> None ->
    exists s', adv s' /\ a_pc s' = AReady /\ a_hist s' = ELook :: EWait :: a_hist s.
  Proof.
    intros R P F V L. pose proof (ai_pc _ _ _ _ _ (areach_inv modulus _ q n positive _ _ _ eq_refl version_small start R)) as I.
    destruct s as [x bf rem f c h]. cbn [a_sh a_buf a_remain a_fut a_pc a_hist] in *. subst c f.
    destruct I as (I & Z). destruct (before_first_look h) as [h0|] eqn:E; [|congruence]. subst rem.
    assert (R1 : adv (AState (begin_poll x) bf 0 (Some v) AFut h)) by (eapply ar_step; [exact R|constructor]).
    assert (R2 : adv (AState (begin_poll x) bf 0 (Some v) AWait h)) by (eapply ar_step; [exact R1|now constructor]).
    assert (R3 := ar_step R2 (as_wait _ _ _ _ _ _)).
    destruct I as (ss & C & O & _).
    destruct (loop_ends ss _ _ _ _ _ R3 C O eq_refl) as (bf' & R4).
    eexists. split; [eapply ar_step; [exact R4|]; now apply as_all|]. auto.
  Qed.
End Theorems.

(** ** The interleavings that go wrong, and cases for the theorems *)
Lemma start_empty {T} : ahead [None] 0 buffer_new (@nil (list T)).
Proof. exists []. split; [now constructor|]. auto. Qed.

Ltac tidy R := cbn [s_sh s_iter s_fut s_pc s_hist note begin_poll wake_by_ref register sh_heap sh_tail
  version done_flag registered draining woken orb gsegments head_offset head_node buffer_new
  it_offset it_node a_sh a_buf a_remain a_fut a_pc a_hist adv_begin adv_end fst snd ad_node ad_offset ad_remain
  list_set app length] in R.

(** C57 as stated is false: with one segment appended and the source finished
    between the second look and the load of the done flag, the end is reported
    and the segment is not. *)
Theorem C57_race_refuted modulus : 0 < modulus ->
  exists s : @sstate nat, sreach modulus (fresh [None] 0) buffer_new s
    /\ s_hist s = [EReturn None; ESend; EDone; ESend; EAppend [7]; ELook; EWait; ENext]
    /\ appended (s_hist s) = [[7]] /\ returned (s_hist s) = [].
Proof.
  intros M. pose proof (sr_init modulus (fresh (@cons (option (list nat * nat)) None nil) 0) buffer_new) as R. unfold sinit, start_history, fresh in R. tidy R.
  eapply sr_step in R; [|apply ss_next]. tidy R.
  eapply sr_step in R; [|apply ss_poll]. tidy R.
  eapply sr_step in R; [|apply ss_fut_none]. tidy R.
  eapply sr_step in R; [|apply ss_next1_none; reflexivity]. tidy R.
  eapply sr_step in R; [|apply ss_wait]. tidy R.
  eapply sr_step in R; [|apply ss_next2_none; reflexivity]. tidy R.
  eapply sr_step in R; [|apply ss_loader; eapply (ls_append modulus) with (seg := [7]); reflexivity]. tidy R.
  eapply sr_step in R; [|apply ss_loader, ls_send]. tidy R.
  eapply sr_step in R; [|apply ss_loader, ls_done]. tidy R.
  eapply sr_step in R; [|apply ss_loader, ls_send]. tidy R.
  eapply sr_step in R; [|apply ss_done; reflexivity]. tidy R.
  eexists. split; [exact R|]. auto.
Qed.

(** C59 as stated is false: [advance(2)] polled when one item is there hands the
    sequence back, after the next append, advanced by 1. *)
Theorem C59_short_refuted modulus : 1 < modulus ->
  exists s : @astate nat, areach modulus (fresh [None] 0) buffer_new 2 s /\ a_pc s = AReady
    /\ all_items [] (a_hist s) = [7; 8] /\ ~ In EDone (a_hist s)
    /\ advanced_by [] 1 s /\ ~ advanced_by [] 2 s.
Proof.
  intros M. pose proof (ar_init modulus (fresh (@cons (option (list nat * nat)) None nil) 0) buffer_new 2) as R. unfold ainit, start_history, fresh in R. tidy R.
  eapply ar_step in R; [|apply as_loader; eapply (ls_append modulus) with (seg := [7]); reflexivity]. tidy R.
  eapply ar_step in R; [|apply as_loader, ls_send]. tidy R.
  rewrite (Nat.mod_small 1 modulus M) in R.
  eapply ar_step in R; [|apply as_loader, ls_drain]. tidy R.
  eapply ar_step in R; [|apply as_poll]. tidy R.
  eapply ar_step in R; [|apply as_fut_none]. tidy R.
  eapply ar_step in R; [|apply as_wait]. tidy R.
  eapply ar_step in R; [|apply as_turn; reflexivity]. tidy R.
  eapply ar_step in R; [|apply as_last; reflexivity]. tidy R.
  eapply ar_step in R; [|apply as_not_done; [discriminate|reflexivity]]. tidy R.
  eapply ar_step in R; [|apply as_wake]. tidy R.
  eapply ar_step in R; [|apply as_loader; eapply (ls_append modulus) with (seg := [8]); reflexivity]. tidy R.
  eapply ar_step in R; [|apply as_loader, ls_send]. tidy R.
  assert (V : 2 mod modulus <> 1).
  { destruct (Nat.eq_dec modulus 2) as [->|N]; [discriminate|]. rewrite Nat.mod_small; lia. }
  eapply ar_step in R; [|apply as_poll]. tidy R.
  eapply ar_step in R; [|apply as_fut_ready; exact V]. tidy R.
  eapply ar_step in R; [|apply as_wait]. tidy R.
  eapply ar_step in R; [|apply as_last; reflexivity]. tidy R.
  eapply ar_step in R; [|apply as_all; reflexivity]. tidy R.
  eexists. split; [exact R|]. split; [reflexivity|]. split; [reflexivity|].
  split. { cbn. intros F. repeat (destruct F as [F|F]; [discriminate|]). exact F. }
  assert (C : chain [Some ([7], 1); Some ([8], 2); None] 1 [[8]] 2).
  { eapply chain_node; [reflexivity|]. constructor. reflexivity. }
  split.
  - exists [[8]]. split; [|reflexivity]. exists [[8]]. split; [exact C|]. cbn. auto with arith.
  - intros (q' & (ss & C' & A) & E). cbn in *.
    destruct (chain_unique _ _ _ _ _ _ C C') as (<- & _). destruct A as (_ & ->). discriminate.
Qed.

(** A run meeting the hypotheses of C56, C57 and C58: a [next] future goes
    pending, is woken by an append, returns it; the source finishes and the end
    is reported. *)
Example parked : exists s : @sstate nat, sreach 16 (fresh [None] 0) buffer_new s
  /\ s_pc s = SParked /\ s_fut s = Some 0 /\ version (s_sh s) = 0 /\ registered (s_sh s) = true
  /\ woken (s_sh s) = false /\ s_hist s = [ELook; EWait; ENext; EDrop; ENext].
Proof.
  pose proof (sr_init 16 (fresh (@cons (option (list nat * nat)) None nil) 0) buffer_new) as R. unfold sinit, start_history, fresh in R. tidy R.
  eapply sr_step in R; [|apply ss_next]. tidy R.
  eapply sr_step in R; [|apply ss_drop]. tidy R.
  eapply sr_step in R; [|apply ss_next]. tidy R.
  eapply sr_step in R; [|apply ss_poll]. tidy R.
  eapply sr_step in R; [|apply ss_fut_none]. tidy R.
  eapply sr_step in R; [|apply ss_next1_none; reflexivity]. tidy R.
  eapply sr_step in R; [|apply ss_wait]. tidy R.
  eapply sr_step in R; [|apply ss_next2_none; reflexivity]. tidy R.
  eapply sr_step in R; [|apply ss_not_done; reflexivity]. tidy R.
  eapply sr_step in R; [|apply ss_set]. tidy R.
  eapply sr_step in R; [|apply ss_poll]. tidy R.
  eapply sr_step in R; [|apply ss_fut_same; reflexivity]. tidy R.
  eapply sr_step in R; [|apply ss_fut2_pending; reflexivity]. tidy R.
  eexists. split; [exact R|]. repeat split; reflexivity.
Qed.

Example delivered : exists s : @sstate nat, sreach 16 (fresh [None] 0) buffer_new s
  /\ s_hist s = [EReturn None; ELook; EWait; ENext; EReturn (Some [7; 8]); ESend; EDone; EAppend [7; 8]; ENext].
Proof.
  pose proof (sr_init 16 (fresh (@cons (option (list nat * nat)) None nil) 0) buffer_new) as R. unfold sinit, start_history, fresh in R. tidy R.
  eapply sr_step in R; [|apply ss_next]. tidy R.
  eapply sr_step in R; [|apply ss_loader; eapply (ls_append 16) with (seg := [7; 8]); reflexivity]. tidy R.
  eapply sr_step in R; [|apply ss_loader, ls_done]. tidy R.
  eapply sr_step in R; [|apply ss_loader, ls_send]. tidy R.
  eapply sr_step in R; [|apply ss_poll]. tidy R.
  eapply sr_step in R; [|apply ss_fut_none]. tidy R.
  eapply sr_step in R; [|eapply ss_next1_some; reflexivity]. tidy R.
  eapply sr_step in R; [|apply ss_next]. tidy R.
  eapply sr_step in R; [|apply ss_poll]. tidy R.
  eapply sr_step in R; [|apply ss_fut_none]. tidy R.
  eapply sr_step in R; [|apply ss_next1_none; reflexivity]. tidy R.
  eapply sr_step in R; [|apply ss_wait]. tidy R.
  eapply sr_step in R; [|apply ss_next2_none; reflexivity]. tidy R.
  eapply sr_step in R; [|apply ss_done; reflexivity]. tidy R.
  eexists. split; [exact R|]. reflexivity.
Qed.

(** A pending [next] future after an append and its send, the wake-up yet to come. *)
Example missed_without_wake : exists s : @sstate nat, sreach 16 (fresh [None] 0) buffer_new s
  /\ s_pc s = SParked /\ s_fut s = Some 0 /\ version (s_sh s) <> 0 /\ woken (s_sh s) = false
  /\ sends_since_wait (s_hist s) = 1 /\ draining (s_sh s) = 1
  /\ returned (s_hist s) ++ [5] :: [] = appended (s_hist s).
Proof.
  pose proof (sr_init 16 (fresh (@cons (option (list nat * nat)) None nil) 0) buffer_new) as R. unfold sinit, start_history, fresh in R. tidy R.
  eapply sr_step in R; [|apply ss_next]. tidy R.
  eapply sr_step in R; [|apply ss_poll]. tidy R.
  eapply sr_step in R; [|apply ss_fut_none]. tidy R.
  eapply sr_step in R; [|apply ss_next1_none; reflexivity]. tidy R.
  eapply sr_step in R; [|apply ss_wait]. tidy R.
  eapply sr_step in R; [|apply ss_next2_none; reflexivity]. tidy R.
  eapply sr_step in R; [|apply ss_not_done; reflexivity]. tidy R.
  eapply sr_step in R; [|apply ss_set]. tidy R.
  eapply sr_step in R; [|apply ss_poll]. tidy R.
  eapply sr_step in R; [|apply ss_fut_same; reflexivity]. tidy R.
  eapply sr_step in R; [|apply ss_fut2_pending; reflexivity]. tidy R.
  eapply sr_step in R; [|apply ss_loader; eapply (ls_append 16) with (seg := [5]); reflexivity]. tidy R.
  eapply sr_step in R; [|apply ss_loader, ls_send]. tidy R.
  eexists. split; [exact R|]. cbn. repeat split; try reflexivity; discriminate.
Qed.

(** [advance(2)] with both items there. *)
Example advanced : exists s : @astate nat, areach 16 (fresh [None] 0) buffer_new 2 s /\ a_pc s = AReady
  /\ before_first_look (a_hist s) = Some [EWait; EAppend [7; 8; 9]].
Proof.
  pose proof (ar_init 16 (fresh (@cons (option (list nat * nat)) None nil) 0) buffer_new 2) as R. unfold ainit, start_history, fresh in R. tidy R.
  eapply ar_step in R; [|apply as_loader; eapply (ls_append 16) with (seg := [7; 8; 9]); reflexivity]. tidy R.
  eapply ar_step in R; [|apply as_poll]. tidy R.
  eapply ar_step in R; [|apply as_fut_none]. tidy R.
  eapply ar_step in R; [|apply as_wait]. tidy R.
  eapply ar_step in R; [|apply as_last; reflexivity]. tidy R.
  eapply ar_step in R; [|apply as_all; reflexivity]. tidy R.
  eexists. split; [exact R|]. repeat split; reflexivity.
Qed.

(** [advance(2)] pending after one item. *)
Example advance_parked : exists s : @astate nat, areach 16 (fresh [None] 0) buffer_new 2 s /\ a_pc s = AParked
  /\ a_fut s = Some 0 /\ version (a_sh s) <> 0 /\ before_first_look (a_hist s) <> None
  /\ sends_since_wait (a_hist s) = 1.
Proof.
  pose proof (ar_init 16 (fresh (@cons (option (list nat * nat)) None nil) 0) buffer_new 2) as R. unfold ainit, start_history, fresh in R. tidy R.
  eapply ar_step in R; [|apply as_poll]. tidy R.
  eapply ar_step in R; [|apply as_fut_none]. tidy R.
  eapply ar_step in R; [|apply as_wait]. tidy R.
  eapply ar_step in R; [|apply as_last; reflexivity]. tidy R.
  eapply ar_step in R; [|apply as_not_done; [discriminate|reflexivity]]. tidy R.
  eapply ar_step in R; [|apply as_wake]. tidy R.
  eapply ar_step in R; [|apply as_loader, ls_send]. tidy R.
  eexists. split; [exact R|]. cbn. repeat split; try reflexivity; discriminate.
Qed.

Print Assumptions C56_in_order.
Print Assumptions C56_none_skipped.
Print Assumptions C56_no_panic.
Print Assumptions C57_end_partial.
Print Assumptions C58_seen.
Print Assumptions C58_woken.
Print Assumptions C58_then_returns.
Print Assumptions C59_exact_partial.
Print Assumptions C59_enough_partial.
Print Assumptions C59_done_partial.
Print Assumptions C59_no_panic_partial.
Print Assumptions C64_woken.
Print Assumptions C64_then_finishes.
Print Assumptions C57_race_refuted.
Print Assumptions C59_short_refuted.
