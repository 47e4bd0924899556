(** * L_Live: the primitive parsers while loaders run. *)
From Coq Require Import Lia.
From Verif Require Export S_Live L_Runner L_Prim.
From Verif Require Import P_Runner.

Section Generic.
  Context {T O : Type} (modulus : nat) (p : @looker T O).
  Variables (x0 : @shared T) (b : gbuffer) (q : list (list T)).
  Hypothesis version_small : version x0 < modulus.
  Hypothesis start : ahead (sh_heap x0) (sh_tail x0) b q.

  Definition live_inv (l : lstate p) : Prop :=
    match l with
    | LLook b' st s => b' = b /\ sreach modulus x0 b s /\ witnessed p (returned (s_hist s)) (inl st)
    | LAdvance h o a => exists s n, sreach modulus x0 b s /\ s_hist s = h /\ areach modulus (s_sh s) b n a /\
        (witnessed p (returned h) (inr (VTake n o)) \/
         exists st, witnessed p (returned h) (inl st) /\ lk_step p st None = inr (VTake n o))
    | LMiss b' s => b' = b /\ sreach modulus x0 b s /\
        (witnessed p (returned (s_hist s)) (inr VMiss) \/
         exists st h1 h2, witnessed p (returned h2) (inl st) /\ returned (s_hist s) = returned h2 /\
           s_hist s = h1 ++ EReturn None :: h2)
    end.

  Lemma loader_returned x e x' (h : list (@revent T)) : loader_step modulus x e x' -> returned (note e h) = returned h.
  Proof. now destruct 1. Qed.
  Lemma loader_hist x e x' (h : list (@revent T)) : loader_step modulus x e x' -> exists h1, note e h = h1 ++ h.
  Proof. intros L. destruct L; cbn; try (eexists [_]; reflexivity). now exists []. Qed.

  (** A step that returns nothing leaves the segments returned alone. *)
  Lemma step_returned (s s' : @sstate T) : sstep modulus s s' -> s_pc s' <> SIdle ->
    returned (s_hist s') = returned (s_hist s).
  Proof.
    intros St N. destruct St; cbn in *; try congruence. eapply loader_returned; eauto.
  Qed.

  Lemma live_reach l : (forall st, lk_step p st None = inr VMiss) -> lreach modulus p x0 b l -> live_inv l.
  Proof.
    intros G R. induction R as [|l l' R IH St].
    - cbn. split; [auto|]. split; [constructor|]. rewrite start_returned. constructor.
    - destruct St; cbn in IH.
      + destruct IH as (-> & R' & S). cbn. split; [auto|]. split.
        * eapply sr_step; [exact R'|]. now constructor.
        * cbn in S. now rewrite (loader_returned _ _ _ _ H).
      + destruct IH as (-> & R' & S). cbn. split; [auto|]. split; [eapply sr_step; eauto|].
        now rewrite (step_returned _ _ H H0).
      + destruct IH as (-> & R' & S).
        assert (R2 : sreach modulus x0 b s') by (eapply sr_step; eauto).
        destruct r as [seg|].
        * assert (S' : witnessed p (returned (s_hist s')) (lk_step p st (Some seg))).
          { rewrite H0. cbn. now apply witnessed_next. }
          unfold after. destruct (lk_step p st (Some seg)) as [st'|[n o|]] eqn:E; cbn; auto.
          exists s', n. split; [auto|]. split; [auto|]. split; [constructor|auto].
        * rewrite G. cbn. split; [auto|]. split; [auto|]. right.
          exists st, [], (s_hist s). rewrite H0. auto.
      + destruct IH as (s & n & A & B & C & D). exists s, n. split; [auto|]. split; [auto|]. split; [|auto].
        eapply ar_step; eauto.
      + destruct IH as (s & n' & A & B & C & D). exists s, n'. split; [auto|]. split; [auto|]. split; [|auto].
        eapply ar_step; [exact C|]. now constructor.
      + destruct IH as (-> & R' & S). cbn. split; [auto|]. split.
        * eapply sr_step; [exact R'|]. now constructor.
        * cbn in S. rewrite (loader_returned _ _ _ _ H).
          destruct S as [S|(st & h1 & h2 & S & E & E')]; auto. right.
          destruct (loader_hist _ _ _ h H) as (h3 & E3).
          exists st, (h3 ++ h1), h2. split; [auto|]. split; [auto|]. rewrite E3, E'. apply app_assoc.
  Qed.

  (** ** What the sequence left_with *)
  Lemma ahead_more (x : @shared T) e x' qs : loader_step modulus x e x' -> ahead (sh_heap x) (sh_tail x) b qs ->
    ahead (sh_heap x') (sh_tail x') b (qs ++ appended (note e [])).
  Proof.
    intros L (ss & C & A). destruct L; cbn in *.
    - destruct (commit_ok _ _ _ _ seg C) as (h1 & tail1 & E1 & C1).
      rewrite H in E1. injection E1 as <- <-. exists (ss ++ [seg]). split; [auto|].
      destruct ss as [|s ss]; cbn.
      + destruct A as (-> & ->). cbn. split; [lia|reflexivity].
      + destruct A as (A & ->). auto.
    - rewrite app_nil_r. exists ss. auto.
    - rewrite app_nil_r. exists ss. auto.
    - rewrite app_nil_r. exists ss. auto.
  Qed.

  Lemma ahead_now s : sreach modulus x0 b s ->
    ahead (sh_heap (s_sh s)) (sh_tail (s_sh s)) b (q ++ appended (s_hist s)).
  Proof.
    induction 1 as [|s s' R IH St].
    - cbn. rewrite start_appended, app_nil_r. exact start.
    - destruct St; cbn in *; auto. pose proof (ahead_more _ _ _ _ H IH) as A.
      rewrite <- app_assoc in A. replace (appended h ++ appended (note e [])) with (appended (note e h)) in A; [exact A|].
      destruct H; cbn; now rewrite ?app_nil_r.
  Qed.

  Lemma ahead_content (x : @shared T) qs qs' : ahead (sh_heap x) (sh_tail x) b qs -> ahead (sh_heap x) (sh_tail x) b qs' -> qs = qs'.
  Proof.
    intros (ss & C & A) (ss' & C' & A'). destruct (chain_unique _ _ _ _ _ _ C C') as (<- & _).
    destruct ss; [destruct A, A'|destruct A, A']; congruence.
  Qed.

  Lemma modulus_positive : 0 < modulus.
  Proof. lia. Qed.
  Let positive := modulus_positive.

  Lemma version_now s : sreach modulus x0 b s -> version (s_sh s) < modulus.
  Proof.
    intros R. pose proof (i_shared _ _ _ _ (sreach_inv modulus _ q positive _ _ _ eq_refl version_small start R)) as [_ V].
    rewrite V. apply Nat.mod_upper_bound. lia.
  Qed.

  (** Taking [n] items that are there leaves the rest. *)
  Lemma takes s n a : sreach modulus x0 b s -> areach modulus (s_sh s) b n a -> a_pc a = AReady ->
    n <= length (concat (q ++ appended (s_hist s))) ->
    left_with (a_sh a) (a_buf a) (skipn n (concat (q ++ appended (s_hist s) ++ appended (a_hist a)))).
  Proof.
    intros R A P L. pose proof (ahead_now s R) as N. pose proof (version_now s R) as V.
    destruct (C59_exact_partial modulus _ _ _ V N n a A P) as (h0 & E & _).
    assert (L' : n <= length (all_items (q ++ appended (s_hist s)) h0)).
    { unfold all_items. rewrite concat_app, app_length. lia. }
    destruct (C59_enough_partial modulus _ _ _ V N n a h0 A P E L') as (q' & A' & C').
    exists q'. split; [auto|]. rewrite C'. unfold all_items. now rewrite <- app_assoc.
  Qed.

  (** ** A source that is done *)
  Lemma done_appended s : done_flag x0 = true -> sreach modulus x0 b s -> appended (s_hist s) = [].
  Proof.
    intros D R.
    assert (X : exists h1, s_hist s = h1 ++ [EDone]).
    { induction R as [|s s' R IH St]; [exists []; cbn; unfold start_history; now rewrite D|].
      destruct IH as (h1 & E). destruct St; cbn in *; subst; try (eexists (_ :: h1); reflexivity); try (exists h1; reflexivity).
      destruct e; cbn; [eexists (_ :: h1); reflexivity|exists h1; reflexivity]. }
    destruct X as (h1 & E). pose proof (i_order _ _ _ _ (sreach_inv modulus _ q positive _ _ _ eq_refl version_small start R)) as O'.
    rewrite E in *. rewrite (orderly_done _ _ _ O' (or_introl eq_refl)). reflexivity.
  Qed.

  Lemma adone_appended (x : @shared T) n a : done_flag x = true -> version x < modulus ->
    forall qx, ahead (sh_heap x) (sh_tail x) b qx -> areach modulus x b n a -> appended (a_hist a) = [].
  Proof.
    intros D V qx A R.
    assert (X : exists h1, a_hist a = h1 ++ [EDone]).
    { induction R as [|s s' R IH St]; [exists []; cbn; unfold start_history; now rewrite D|].
      destruct IH as (h1 & E). destruct St; cbn in *; subst; try (eexists (_ :: h1); reflexivity); try (exists h1; reflexivity).
      destruct e; cbn; [eexists (_ :: h1); reflexivity|exists h1; reflexivity]. }
    destruct X as (h1 & E). pose proof (ai_order _ _ _ _ _ (areach_inv modulus _ qx n positive _ _ _ eq_refl V A R)) as O'.
    rewrite E in *. rewrite (orderly_done _ _ _ O' (or_introl eq_refl)). reflexivity.
  Qed.

  Lemma done_stays s : done_flag x0 = true -> sreach modulus x0 b s -> done_flag (s_sh s) = true.
  Proof.
    intros D R. induction R as [|s s' R IH St]; [auto|]. destruct St; cbn in *; auto. destruct H; cbn in *; auto.
  Qed.

  (** ** It ends *)
  Lemma leads_trans l1 l2 l3 : leads modulus p l1 l2 -> leads modulus p l2 l3 -> leads modulus p l1 l3.
  Proof. induction 1; auto. intros. econstructor; eauto. Qed.

  (** With the source done no future is ever stored. *)
  Definition quick (s : @sstate T) : Prop :=
    s_fut s = None /\ match s_pc s with SFut2 | SSet _ | SPanicked => False | _ => True end.
  Lemma stays_quick s : done_flag x0 = true -> sreach modulus x0 b s -> quick s.
  Proof.
    intros D R. pose proof R as R0.
    assert (NP : s_pc s <> SPanicked) by (eapply C56_no_panic; eauto).
    clear R0. revert NP. induction R as [|s s' R IH St]; intros NP; [now split|].
    assert (NP0 : s_pc s <> SPanicked) by (eapply C56_no_panic; eauto).
    pose proof (done_stays s D R) as D'. specialize (IH NP0). unfold quick in *.
    destruct St; cbn in *; destruct IH as (F & P); try congruence; auto; try contradiction.
  Qed.

  Lemma look_goes_on s st : done_flag x0 = true -> sreach modulus x0 b s ->
    exists s1 s' r, leads modulus p (LLook b st s) (LLook b st s1) /\ sreach modulus x0 b s1 /\
      sstep modulus s1 s' /\ s_hist s' = EReturn r :: s_hist s1 /\ returned (s_hist s1) = returned (s_hist s).
  Proof.
    intros D R.
    assert (NEXT1 : forall x i h, sreach modulus x0 b (SState x i None SNext1 h) ->
      exists s1 s' r, leads modulus p (LLook b st (SState x i None SNext1 h)) (LLook b st s1) /\ sreach modulus x0 b s1 /\
        sstep modulus s1 s' /\ s_hist s' = EReturn r :: s_hist s1 /\ returned (s_hist s1) = returned h).
    { intros x i h R1.
      pose proof (i_iter _ _ _ _ (sreach_inv modulus _ q positive _ _ _ eq_refl version_small start R1)) as (ss & C & OK & _).
      cbn in C, OK. pose proof (gnext_ok _ _ _ _ C OK) as N. destruct ss as [|sg ss].
      - set (sA := SState x i None SWait h). set (sB := SState x i None (SNext2 (version x)) (EWait :: h)).
        set (sC := SState x i None (SDone (version x)) (ELook :: EWait :: h)).
        assert (A1 : sstep modulus (SState x i None SNext1 h) sA) by (eapply ss_next1_none; eauto).
        assert (A2 : sstep modulus sA sB) by constructor.
        assert (A3 : sstep modulus sB sC) by (eapply ss_next2_none; eauto).
        assert (R4 : sreach modulus x0 b sC) by (eapply sr_step; [eapply sr_step; [eapply sr_step; [exact R1|]|]|]; eauto).
        exists sC, (SState x i None SIdle (EReturn None :: ELook :: EWait :: h)), None.
        split; [|split; [exact R4|split; [|split; reflexivity]]].
        + eapply leads_on; [eapply lv_poll; [exact A1|discriminate]|].
          eapply leads_on; [eapply lv_poll; [exact A2|discriminate]|].
          eapply leads_on; [eapply lv_poll; [exact A3|discriminate]|]. constructor.
        + apply ss_done. exact (done_stays sC D R4).
      - destruct N as (m & N & _). exists (SState x i None SNext1 h). eexists _, (Some _).
        split; [constructor|]. split; [auto|]. split; [eapply ss_next1_some; exact N|]. split; reflexivity. }
    assert (PARKED : forall x i h, sreach modulus x0 b (SState x i None SParked h) ->
      exists s1 s' r, leads modulus p (LLook b st (SState x i None SParked h)) (LLook b st s1) /\ sreach modulus x0 b s1 /\
        sstep modulus s1 s' /\ s_hist s' = EReturn r :: s_hist s1 /\ returned (s_hist s1) = returned h).
    { intros x i h R1.
      assert (R2 : sreach modulus x0 b (SState (begin_poll x) i None SFut h)) by (eapply sr_step; [exact R1|constructor]).
      assert (R3 : sreach modulus x0 b (SState (begin_poll x) i None SNext1 h)) by (eapply sr_step; [exact R2|constructor]).
      destruct (NEXT1 _ _ _ R3) as (s1 & s' & r & L & REST). exists s1, s', r. split; [|exact REST].
      eapply leads_on; [eapply lv_poll; [apply ss_poll|discriminate]|].
      eapply leads_on; [eapply lv_poll; [apply ss_fut_none|discriminate]|]. exact L. }
    destruct (stays_quick s D R) as (F & P). destruct s as [x i f c h]. cbn in F, P. subst f.
    destruct c; try contradiction.
    - assert (R2 : sreach modulus x0 b (SState x i None SParked (ENext :: h))) by (eapply sr_step; [exact R|constructor]).
      destruct (PARKED _ _ _ R2) as (s1 & s' & r & L & A & B & C & E). exists s1, s', r.
      split; [eapply leads_on; [eapply lv_poll; [apply ss_next|discriminate]|exact L]|]. auto.
    - now apply PARKED.
    - assert (R3 : sreach modulus x0 b (SState x i None SNext1 h)) by (eapply sr_step; [exact R|constructor]).
      destruct (NEXT1 _ _ _ R3) as (s1 & s' & r & L & REST). exists s1, s', r. split; [|exact REST].
      eapply leads_on; [eapply lv_poll; [apply ss_fut_none|discriminate]|]. exact L.
    - now apply NEXT1.
    - (* SWait *)
      assert (R2 : sreach modulus x0 b (SState x i None (SNext2 (version x)) (EWait :: h))) by (eapply sr_step; [exact R|constructor]).
      pose proof (i_iter _ _ _ _ (sreach_inv modulus _ q positive _ _ _ eq_refl version_small start R2)) as (ss & C & OK & _).
      cbn in C, OK. pose proof (gnext_ok _ _ _ _ C OK) as N. destruct ss as [|sg ss].
      + assert (R3 : sreach modulus x0 b (SState x i None (SDone (version x)) (ELook :: EWait :: h)))
          by (eapply sr_step; [exact R2|eapply ss_next2_none; eauto]).
        eexists _, _, None. split; [|split; [exact R3|split; [apply ss_done; exact (done_stays _ D R3)|split; reflexivity]]].
        eapply leads_on; [eapply lv_poll; [apply ss_wait|discriminate]|].
        eapply leads_on; [eapply lv_poll; [eapply ss_next2_none; eauto|discriminate]|]. constructor.
      + destruct N as (m & N & _). eexists _, _, (Some _).
        split; [eapply leads_on; [eapply lv_poll; [apply ss_wait|discriminate]|constructor]|].
        split; [exact R2|]. split; [eapply ss_next2_some; exact N|]. split; reflexivity.
    - (* SNext2 *)
      pose proof (i_iter _ _ _ _ (sreach_inv modulus _ q positive _ _ _ eq_refl version_small start R)) as (ss & C & OK & _).
      cbn in C, OK. pose proof (gnext_ok _ _ _ _ C OK) as N. destruct ss as [|sg ss].
      + assert (R3 : sreach modulus x0 b (SState x i None (SDone v) (ELook :: h)))
          by (eapply sr_step; [exact R|eapply ss_next2_none; eauto]).
        eexists _, _, None. split; [|split; [exact R3|split; [apply ss_done; exact (done_stays _ D R3)|split; reflexivity]]].
        eapply leads_on; [eapply lv_poll; [eapply ss_next2_none; eauto|discriminate]|]. constructor.
      + destruct N as (m & N & _). eexists _, _, (Some _). split; [constructor|].
        split; [exact R|]. split; [eapply ss_next2_some; exact N|]. split; reflexivity.
    - eexists _, _, None. split; [constructor|]. split; [exact R|].
      split; [apply ss_done; exact (done_stays _ D R)|]. split; reflexivity.
  Qed.

  Lemma look_ends st s : (forall st, exists v, lk_step p st None = inr v) -> done_flag x0 = true ->
    forall k, length q - length (returned (s_hist s)) <= k -> sreach modulus x0 b s ->
    exists l, leads modulus p (LLook b st s) l /\
      match l with
      | LLook _ _ _ => False
      | LAdvance h o a => exists s n, sreach modulus x0 b s /\ a = ainit (s_sh s) b n
      | LMiss _ _ => True
      end.
  Proof.
    intros G D k. revert st s. induction k as [|k IH]; intros st s L R;
      destruct (look_goes_on s st D R) as (s1 & s' & r & A & R1 & S' & H & E);
      assert (R2 : sreach modulus x0 b s') by (eapply sr_step; eauto);
      pose proof (i_iter _ _ _ _ (sreach_inv modulus _ q positive _ _ _ eq_refl version_small start R2)) as (ss & _ & _ & Q);
      pose proof (done_appended s' D R2) as N; rewrite N, app_nil_r in Q;
      apply (f_equal (@length _)) in Q; rewrite app_length in Q; rewrite H in Q.
    - destruct r as [sg|].
      + exfalso. cbn in Q. rewrite app_length, E in Q. cbn in Q. lia.
      + eexists. split; [eapply leads_trans; [exact A|]; eapply leads_on; [eapply lv_answer; eauto|constructor]|].
        destruct (G st) as ([n o|] & ->); cbn; eauto.
    - destruct r as [sg|].
      + destruct (lk_step p st (Some sg)) as [st'|[n o|]] eqn:K.
        * destruct (IH st' s') as (l & A' & P); [|auto|].
          { rewrite H. cbn. rewrite app_length, E. cbn in *. rewrite app_length, E in Q. cbn in Q. lia. }
          exists l. split; [|exact P]. eapply leads_trans; [exact A|]. eapply leads_on; [eapply lv_answer; eauto|].
          rewrite K. exact A'.
        * eexists. split; [eapply leads_trans; [exact A|]; eapply leads_on; [eapply lv_answer; eauto|constructor]|].
          rewrite K. cbn. eauto.
        * eexists. split; [eapply leads_trans; [exact A|]; eapply leads_on; [eapply lv_answer; eauto|constructor]|].
          rewrite K. exact I.
      + eexists. split; [eapply leads_trans; [exact A|]; eapply leads_on; [eapply lv_answer; eauto|constructor]|].
        destruct (G st) as ([n o|] & ->); cbn; eauto.
  Qed.

  (** [advance] on a source that is done. *)
  Definition aquick (a : @astate T) : Prop :=
    match a_pc a with AParked | AFut => a_fut a = None | AFut2 | AWake => False | _ => True end.
  Lemma adone_stays (x : @shared T) n a : done_flag x = true -> areach modulus x b n a -> done_flag (a_sh a) = true.
  Proof.
    intros D R. induction R as [|s s' R IH St]; [auto|]. destruct St; cbn in *; auto. destruct H; cbn in *; auto.
  Qed.
  Lemma stays_aquick (x : @shared T) n a : done_flag x = true -> areach modulus x b n a -> aquick a.
  Proof.
    intros D R. induction R as [|s s' R IH St]; [reflexivity|].
    pose proof (adone_stays _ _ _ D R) as D'. unfold aquick in *. destruct St; cbn in *; auto; try congruence; contradiction.
  Qed.

  Lemma loop_to_check h o ss : forall x bf n f a g,
    chain (sh_heap x) (ad_node a) ss (sh_tail x) -> off_ok (ad_offset a) ss ->
    exists bf' m g', leads modulus p (LAdvance h o (AState x bf n f (ALoop a) g)) (LAdvance h o (AState x bf' n f (ACheck m) g')).
  Proof.
    induction ss as [|s0 ss IH]; intros x bf n f a g C OK;
      destruct (adv_turn_ok _ _ _ _ C OK) as (r & E & P); destruct r as [a'|a'].
    - destruct P as (? & ? & ? & _). discriminate.
    - eexists _, _, _. eapply leads_on; [apply lv_advance; [apply as_last; exact E|discriminate]|]. constructor.
    - destruct P as (s1 & ss1 & Q & C' & O' & _ & _). injection Q as <- <-.
      destruct (IH x bf n f a' g C') as (bf' & m & g' & L). { rewrite O'. destruct ss; cbn; lia. }
      exists bf', m, g'. eapply leads_on; [apply lv_advance; [apply as_turn; exact E|discriminate]|]. exact L.
    - eexists _, _, _. eapply leads_on; [apply lv_advance; [apply as_last; exact E|discriminate]|]. constructor.
  Qed.

  Lemma advance_ends h o (x : @shared T) n a qx : done_flag x = true -> version x < modulus ->
    ahead (sh_heap x) (sh_tail x) b qx -> areach modulus x b n a -> a_pc a <> APanicked ->
    exists a', leads modulus p (LAdvance h o a) (LAdvance h o a') /\ a_pc a' = AReady.
  Proof.
    intros D V A R NP.
    pose proof (adone_stays _ _ _ D R) as D'. pose proof (stays_aquick _ _ _ D R) as K.
    pose proof (ai_pc _ _ _ _ _ (areach_inv modulus _ qx n positive _ _ _ eq_refl V A R)) as P.
    destruct a as [y bf rem f c g]. cbn [a_sh a_buf a_remain a_fut a_pc a_hist] in *.
    assert (CHECK : forall y bf rem f m g, done_flag y = true ->
      exists a', leads modulus p (LAdvance h o (AState y bf rem f (ACheck m) g)) (LAdvance h o a') /\ a_pc a' = AReady).
    { intros y' bf' rem' f' m g' Dy. destruct (Nat.eq_dec m rem') as [E|E]; eexists; split.
      - eapply leads_on; [apply lv_advance; [apply as_all; exact E|discriminate]|]. constructor.
      - reflexivity.
      - eapply leads_on; [apply lv_advance; [apply as_done; [exact E|exact Dy]|discriminate]|]. constructor.
      - reflexivity. }
    assert (LOOP : forall y bf rem f ad g ss, done_flag y = true -> chain (sh_heap y) (ad_node ad) ss (sh_tail y) ->
      off_ok (ad_offset ad) ss ->
      exists a', leads modulus p (LAdvance h o (AState y bf rem f (ALoop ad) g)) (LAdvance h o a') /\ a_pc a' = AReady).
    { intros y' bf' rem' f' ad g' ss Dy C OK.
      destruct (loop_to_check h o ss y' bf' rem' f' ad g' C OK) as (b2 & m & g2 & L).
      destruct (CHECK y' b2 rem' f' m g2 Dy) as (a' & L' & P'). exists a'. split; [eapply leads_trans; eauto|auto]. }
    assert (WAIT : forall y bf rem f g ss, done_flag y = true -> chain (sh_heap y) (head_node bf) ss (sh_tail y) ->
      off_ok (head_offset bf) ss ->
      exists a', leads modulus p (LAdvance h o (AState y bf rem f AWait g)) (LAdvance h o a') /\ a_pc a' = AReady).
    { intros y' bf' rem' f' g' ss Dy C OK.
      destruct (LOOP y' bf' 0 (Some (version y')) (adv_begin bf' rem') (EWait :: g') ss Dy C OK) as (a' & L & P').
      exists a'. split; [|auto]. eapply leads_on; [apply lv_advance; [apply as_wait|discriminate]|]. exact L. }
    unfold aquick in K. destruct c; cbn [a_sh a_buf a_remain a_fut a_pc a_hist apinv] in *; try contradiction; try congruence.
    - subst f. destruct P as ((ss & C & OK & _) & _).
      destruct (WAIT (begin_poll y) bf rem None g ss) as (a' & L & P'); auto.
      exists a'. split; [|auto]. eapply leads_on; [apply lv_advance; [apply as_poll|discriminate]|].
      eapply leads_on; [apply lv_advance; [apply as_fut_none|discriminate]|]. exact L.
    - subst f. destruct P as ((ss & C & OK & _) & _).
      destruct (WAIT y bf rem None g ss) as (a' & L & P'); auto.
      exists a'. split; [|auto]. eapply leads_on; [apply lv_advance; [apply as_fut_none|discriminate]|]. exact L.
    - destruct P as ((ss & C & OK & _) & _). eapply WAIT; eauto.
    - destruct P as (k & (ss & C & OK & _) & _). eapply LOOP; eauto.
    - now apply CHECK.
    - eexists. split; [constructor|reflexivity].
  Qed.
End Generic.
