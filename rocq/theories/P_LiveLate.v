(** * P_LiveLate: property C79, a parser that waits while the source finishes. *)
From Coq Require Import Lia.
From Verif Require Import S_LiveEnds L_Live P_Runner P_Live L_LiveOwn.

Local Arguments Nat.modulo : simpl never.
Local Arguments Nat.mul : simpl never.

Section Late.
  Context {T O : Type} (p : @looker T O).
  Variables (modulus : nat) (x0 : @shared T) (b : gbuffer) (q : list (list T)).
  Hypothesis version_small : version x0 < modulus.
  Hypothesis start : ahead (sh_heap x0) (sh_tail x0) b q.
  Hypothesis sincere : honest p.

  Lemma late_positive : 0 < modulus. Proof. lia. Qed.

  Lemma loader_waited (x : @shared T) e x' h : loader_step modulus x e x' ->
    before_wait (note e h) = before_wait h /\ sends h <= sends (note e h) /\ (In EDone h -> In EDone (note e h)).
  Proof. destruct 1; cbn; auto. Qed.

  Lemma loader_still_late (x : @shared T) e x' h : loader_step modulus x e x' -> done_flag x = true ->
    sh_heap x' = sh_heap x /\ sh_tail x' = sh_tail x /\ appended (note e h) = appended h /\ done_flag x' = true.
  Proof. destruct 1; cbn; auto. discriminate. Qed.

  (** Signalled since the [wait()] whose future is stored. *)
  Definition behind (h : list (@revent T)) : Prop := sends (before_wait h) < sends h.
  Definition alert (l : lstate p) : Prop :=
    match l with
    | LLook _ _ s => In EDone (s_hist s) /\
        match s_pc s with
        | SParked | SFut | SFut2 => s_fut s <> None -> behind (s_hist s)
        | SSet _ => behind (s_hist s)
        | _ => True
        end
    | LAdvance _ _ a => In EDone (a_hist a) /\
        match a_pc a with
        | AParked | AFut | AFut2 | AWake => a_fut a <> None -> behind (a_hist a)
        | _ => True
        end
    | LMiss _ _ => True
    end.

  Lemma behind_differs v0 v (x : @shared T) h : xinv modulus v0 x h -> waited modulus v0 v h -> behind h ->
    sends_since_wait h < modulus -> version x <> v.
  Proof.
    intros [_ V] W B L E. unfold waited in W. unfold behind in B. unfold sends_since_wait in L.
    assert (v0 + sends (before_wait h) = v0 + sends h); [|lia].
    apply (mod_same modulus); try lia; congruence.
  Qed.

  Lemma loader_alert l l' : by_loader modulus l l' -> alert l -> alert l'.
  Proof.
    intros B A. destruct B as [b' st x e x' i f c h L|g o x e x' b' n f c h L|b' x e x' i f c h L]; cbn in *; auto;
      destruct (loader_waited _ _ _ h L) as (E1 & E2 & E3); destruct A as (A1 & A2); (split; [auto|]); unfold behind in *; rewrite E1;
      destruct c; auto; intros; specialize (A2 ltac:(assumption)) || idtac; lia.
  Qed.

  (** ** Never stuck *)
  Theorem C79_progress l : lreach modulus p x0 b l -> answered l \/ exists l', own modulus l l'.
  Proof.
    intros R. pose proof (own_waits modulus p x0 b q version_small start sincere _ R) as Q.
    pose proof (own_no_panic modulus p x0 b q version_small start sincere _ R) as NP.
    destruct l as [b' st s|g o a|b' s]; cbn [answered]; [| |now left].
    - right. destruct Q as (-> & S & _).
      pose proof (sreach_inv modulus _ q late_positive _ _ _ eq_refl version_small start S) as [_ (ss & C & OK & _) _ P _].
      destruct s as [x i f c h]. cbn in P, C, OK, NP. pose proof (gnext_ok _ _ _ _ C OK) as N.
      assert (POLL : forall s', sstep modulus (SState x i f c h) s' -> s_pc s' <> c -> s_pc s' <> SIdle ->
        exists l', own modulus (LLook b st (SState x i f c h)) l').
      { intros s' St NE NI. exists (LLook b st s'). split; [now apply lv_poll|]. intros B. inversion B; subst. now apply NE. }
      assert (ANSWER : forall s' r, sstep modulus (SState x i f c h) s' -> s_pc s' <> c -> s_hist s' = EReturn r :: h ->
        exists l', own modulus (LLook b st (SState x i f c h)) l').
      { intros s' r St NE H. exists (after p b s' (lk_step p st r)). split; [now apply lv_answer|]. intros B.
        unfold after in B. destruct (lk_step p st r) as [st'|[n o|]]; inversion B; subst. now apply NE. }
      destruct c; try contradiction; try congruence.
      + eapply POLL; [apply ss_next|discriminate|discriminate].
      + eapply POLL; [apply ss_poll|discriminate|discriminate].
      + destruct f as [v|]; [|eapply POLL; [apply ss_fut_none|discriminate|discriminate]].
        destruct (Nat.eq_dec (version x) v) as [E|E].
        * eapply POLL; [apply ss_fut_same; exact E|discriminate|discriminate].
        * eapply POLL; [apply ss_fut_ready; exact E|discriminate|discriminate].
      + destruct f as [v|]; [|contradiction]. destruct (Nat.eq_dec (version x) v) as [E|E].
        * eapply POLL; [apply ss_fut2_pending; exact E|discriminate|discriminate].
        * eapply POLL; [apply ss_fut2_ready; exact E|discriminate|discriminate].
      + destruct ss as [|sg ss].
        * eapply POLL; [eapply ss_next1_none; exact N|discriminate|discriminate].
        * destruct N as (m & N & _). eapply ANSWER; [eapply ss_next1_some; exact N|discriminate|reflexivity].
      + eapply POLL; [apply ss_wait|discriminate|discriminate].
      + destruct ss as [|sg ss].
        * eapply POLL; [eapply ss_next2_none; exact N|discriminate|discriminate].
        * destruct N as (m & N & _). eapply ANSWER; [eapply ss_next2_some; exact N|discriminate|reflexivity].
      + destruct (done_flag x) eqn:D.
        * eapply ANSWER; [apply ss_done; exact D|discriminate|reflexivity].
        * eapply POLL; [apply ss_not_done; exact D|discriminate|discriminate].
      + eapply POLL; [apply ss_set|discriminate|discriminate].
    - destruct Q as (s & k & S & _ & A & V & H).
      pose proof (areach_inv modulus _ _ _ late_positive _ _ _ eq_refl V H A) as [_ _ P F _].
      destruct a as [x bf rem f c h]. cbn in P, F, NP |- *.
      assert (STEP : forall a', astep modulus (AState x bf rem f c h) a' -> a_pc a' <> c -> c <> AReady ->
        c = AReady \/ exists l', own modulus (LAdvance (p := p) g o (AState x bf rem f c h)) l').
      { intros a' St NE NR. right. exists (LAdvance g o a'). split; [now apply lv_advance|]. intros B. inversion B; subst. now apply NE. }
      destruct c; try contradiction; try congruence; auto.
      + eapply STEP; [apply as_poll|discriminate|discriminate].
      + destruct f as [v|]; [|eapply STEP; [apply as_fut_none|discriminate|discriminate]].
        destruct (Nat.eq_dec (version x) v) as [E|E].
        * eapply STEP; [apply as_fut_same; exact E|discriminate|discriminate].
        * eapply STEP; [apply as_fut_ready; exact E|discriminate|discriminate].
      + destruct f as [v|]; [|contradiction]. destruct (Nat.eq_dec (version x) v) as [E|E].
        * eapply STEP; [apply as_fut2_pending; exact E|discriminate|discriminate].
        * eapply STEP; [apply as_fut2_ready; exact E|discriminate|discriminate].
      + eapply STEP; [apply as_wait|discriminate|discriminate].
      + destruct P as (k' & (ss & C & OK & _) & _). destruct (adv_turn_ok _ _ _ _ C OK) as ([a'|a'] & E & P).
        * eapply STEP; [apply as_turn; exact E| |discriminate]. cbn. intros X. injection X as ->.
          destruct P as (s1 & ss1 & -> & C' & _). destruct (chain_unique _ _ _ _ _ _ C C') as (X & _).
          apply (f_equal (@length _)) in X. cbn in X. lia.
        * eapply STEP; [apply as_last; exact E|discriminate|discriminate].
      + destruct (Nat.eq_dec remain rem) as [E|E].
        * eapply STEP; [apply as_all; exact E|discriminate|discriminate].
        * destruct (done_flag x) eqn:D.
          -- eapply STEP; [apply as_done; [exact E|exact D]|discriminate|discriminate].
          -- eapply STEP; [apply as_not_done; [exact E|exact D]|discriminate|discriminate].
      + eapply STEP; [apply as_wake|discriminate|discriminate].
  Qed.

  (** ** How many steps are left *)
  Definition srank_late (c : spc) : nat :=
    match c with
    | SIdle => 8 | SSet _ => 8 | SParked => 7 | SFut => 6 | SFut2 => 5 | SNext1 => 4 | SWait => 3 | SNext2 _ => 2 | SDone _ => 1
    | SPanicked => 0
    end.
  Definition in_chain (x : @shared T) (m : nat) (n : nat) : Prop := exists ss, chain (sh_heap x) m ss (sh_tail x) /\ length ss = n.

  Definition within_late (l : lstate p) (m : nat) : Prop :=
    match l with
    | LLook _ _ s => m = 8 * (length (q ++ appended (s_hist s)) - length (returned (s_hist s))) + srank_late (s_pc s)
                         + (length (q ++ appended (s_hist s)) + 8)
    | LAdvance _ _ a =>
        match a_pc a with
        | AWake => exists n, in_chain (a_sh a) (head_node (a_buf a)) n /\ m = n + 8
        | AParked => exists n, in_chain (a_sh a) (head_node (a_buf a)) n /\ m = n + 7
        | AFut => exists n, in_chain (a_sh a) (head_node (a_buf a)) n /\ m = n + 6
        | AFut2 => exists n, in_chain (a_sh a) (head_node (a_buf a)) n /\ m = n + 5
        | AWait => exists n, in_chain (a_sh a) (head_node (a_buf a)) n /\ m = n + 4
        | ALoop ad => exists n, in_chain (a_sh a) (ad_node ad) n /\ m = n + 3
        | ACheck _ => m = 1
        | AReady | APanicked => m = 0
        end
    | LMiss _ _ => m = 0
    end.

  Lemma look_done s : sreach modulus x0 b s -> In EDone (s_hist s) -> done_flag (s_sh s) = true.
  Proof.
    intros S D. pose proof (i_shared _ _ _ _ (sreach_inv modulus _ q late_positive _ _ _ eq_refl version_small start S)) as [X _].
    now apply X.
  Qed.

  Lemma loader_within_late l l' m : lreach modulus p x0 b l -> alert l -> by_loader modulus l l' -> within_late l m ->
    lreach modulus p x0 b l' /\ alert l' /\ within_late l' m.
  Proof.
    intros R AL B W.
    pose proof (own_waits modulus p x0 b q version_small start sincere _ R) as Q.
    assert (R' : lreach modulus p x0 b l').
    { eapply lr_step; [exact R|]. destruct B; [now apply lv_loader|now apply lv_advanced|now apply lv_missed]. }
    split; [exact R'|]. split; [exact (loader_alert _ _ B AL)|].
    destruct B as [b' st x e x' i f c h L|g o x e x' b' n f c h L|b' x e x' i f c h L]; cbn in *.
    - destruct Q as (-> & S & _). destruct AL as (D & _). pose proof (look_done _ S D) as D'. cbn in D'.
      destruct (loader_still_late _ _ _ h L D') as (_ & _ & -> & _). now rewrite (loader_returned modulus _ _ _ _ L).
    - destruct Q as (s & k & S & _ & A & V & H). destruct AL as (D & _).
      pose proof (ai_shared _ _ _ _ _ (areach_inv modulus _ _ _ late_positive _ _ _ eq_refl V H A)) as [X _].
      destruct (loader_still_late _ _ _ h L (proj2 X D)) as (E1 & E2 & _). unfold in_chain in *. rewrite E1, E2. exact W.
    - exact W.
  Qed.

  Lemma own_within_late l l' m : lreach modulus p x0 b l -> alert l -> sends_since_wait (events l) < modulus ->
    own modulus l l' -> within_late l m ->
    lreach modulus p x0 b l' /\ alert l' /\ exists m', m' < m /\ within_late l' m'.
  Proof.
    intros R AL CALM (St & NL) W.
    pose proof (own_waits modulus p x0 b q version_small start sincere _ R) as Q.
    assert (R' : lreach modulus p x0 b l') by (eapply lr_step; eauto).
    pose proof (own_no_panic modulus p x0 b q version_small start sincere _ R') as NP'.
    split; [exact R'|]. destruct sincere as (_ & G & _).
    destruct St as [b' st x e x' i f c h L|b' st s s' S' NI|b' st s s' r S' H|g o a a' A' NR|g o x e x' b' n f c h L|b' x e x' i f c h L].
    - destruct NL. now constructor.
    - cbn [within_late alert events] in *. destruct Q as (-> & S & _). pose proof (look_done _ S (proj1 AL)) as D.
      pose proof (sreach_inv modulus _ q late_positive _ _ _ eq_refl version_small start S) as [X _ _ P _].
      rewrite (step_returned modulus _ _ S' NI).
      destruct S'; cbn in *; subst; try contradiction; try congruence;
        try (destruct AL as (AL1 & AL2); split; [split; [auto|solve [exact AL2|exact I|congruence]]|eexists; split; [|reflexivity]; lia]).
      + destruct NL. now constructor.
      + exfalso. destruct P as (P & _). eapply behind_differs; [exact X|exact P| |exact CALM|reflexivity]. apply (proj2 AL). discriminate.
    - destruct Q as (-> & S & _). assert (S2 : sreach modulus x0 b s') by (eapply sr_step; eauto).
      cbn [alert within_late events] in AL, W, CALM. destruct AL as (AL1 & AL2).
      assert (LE : length (returned (s_hist s')) <= length (q ++ appended (s_hist s'))).
      { destruct (C56_in_order modulus x0 b q version_small start s' S2) as (t & E). rewrite <- E, app_length. lia. }
      assert (PC : 1 <= srank_late (s_pc s) /\ (r <> None -> 2 <= srank_late (s_pc s)) /\ s_pc s' = SIdle).
      { destruct S'; cbn in H |- *; try (apply (f_equal (@length _)) in H; cbn in H; lia); try (injection H as <-); try discriminate; try lia;
          try (split; [lia|split; [first [lia|congruence]|reflexivity]]).
        destruct e as [e|]; cbn in H; [injection H as ->|apply (f_equal (@length _)) in H; cbn in H; lia]. inversion H0. }
      destruct PC as (PC1 & PC2 & PC3).
      assert (AE : appended (s_hist s') = appended (s_hist s)) by now rewrite H.
      assert (D' : In EDone (s_hist s')) by (rewrite H; cbn; auto).
      rewrite AE in LE. rewrite H in LE. destruct r as [sg|].
      + specialize (PC2 ltac:(discriminate)). cbn [returned] in LE. rewrite app_length in LE. cbn [length] in LE. unfold after.
        destruct (lk_step p st (Some sg)) as [st'|[n o|]] eqn:K.
        * split; [split; [exact D'|now rewrite PC3]|]. eexists. split; [|reflexivity]. rewrite PC3, AE, H. cbn [returned srank_late].
          rewrite app_length at 1 2. cbn [length]. rewrite !app_length in *. cbn [length] in *. lia.
        * split; [split; [|intros F; now destruct F]|].
          -- cbn. unfold start_history. rewrite (look_done _ S2 D'). now left.
          -- pose proof (ahead_now modulus x0 b q version_small start s' S2) as (ss & C & A). rewrite AE in A.
             exists (length ss + 7). split; [|cbn; exists (length ss); split; [exists ss; auto|reflexivity]].
             assert (length ss = length (q ++ appended (s_hist s))) by (destruct ss; destruct A as (_ & A); rewrite A; auto). lia.
        * split; [exact I|]. exists 0. split; [lia|reflexivity].
      + unfold after. destruct (G st) as ([n o|] & ->).
        * split; [split; [|intros F; now destruct F]|].
          -- cbn. unfold start_history. rewrite (look_done _ S2 D'). now left.
          -- pose proof (ahead_now modulus x0 b q version_small start s' S2) as (ss & C & A). rewrite AE in A.
             exists (length ss + 7). split; [|cbn; exists (length ss); split; [exists ss; auto|reflexivity]].
             assert (length ss = length (q ++ appended (s_hist s))) by (destruct ss; destruct A as (_ & A); rewrite A; auto). lia.
        * split; [exact I|]. exists 0. split; [|reflexivity]. lia.
    - destruct Q as (s & k & S & _ & A & V & H).
      pose proof (areach_inv modulus _ _ _ late_positive _ _ _ eq_refl V H A) as [X _ P F _].
      cbn [alert within_late events] in AL, W, CALM. destruct AL as (AL1 & AL2). pose proof (proj2 (x_done _ _ _ _ X) AL1) as D.
      destruct A' as [x e x' bf n f c g1 L| | | | | | | | |x bf n f ad ad' g1 E|x bf n f ad ad' g1 E| | | | |];
        cbn in *; subst; try contradiction; try congruence;
        try (destruct W as (j & C & ->); split; [split; [auto|solve [exact AL2|exact I|congruence]]|];
             eexists; split; [|exists j; split; [exact C|reflexivity]]; lia);
        try (split; [split; [auto|trivial]|exists 0; split; [lia|reflexivity]]).
      + destruct NL. now constructor.
      + exfalso. eapply behind_differs; [exact X|exact F| |exact CALM|reflexivity]. apply AL2. discriminate.
      + destruct W as (j & (ss & C & <-) & ->). destruct P as (k' & (ss1 & C1 & OK & _) & _).
        destruct (chain_unique _ _ _ _ _ _ C C1) as (<- & _).
        destruct (adv_turn_ok _ _ _ _ C OK) as (r & E' & P). rewrite E in E'. injection E' as <-.
        destruct P as (s1 & ss2 & -> & C' & _). split; [auto|]. exists (length ss2 + 3). split; [cbn; lia|].
        exists (length ss2). split; [exists ss2; auto|reflexivity].
      + destruct W as (j & _ & ->). split; [auto|]. exists 1. split; [lia|reflexivity].
    - destruct NL. now constructor.
    - destruct NL. now constructor.
  Qed.

  Lemma goes_within_late k l l' m : goes_calm modulus k l l' -> lreach modulus p x0 b l -> alert l -> within_late l m ->
    lreach modulus p x0 b l' /\ alert l' /\ exists m', k + m' <= m /\ within_late l' m'.
  Proof.
    intros G. revert m. induction G as [l|k l l1 l2 B G IH|k l l1 l2 CA B G IH]; intros m R A W.
    - split; [exact R|]. split; [exact A|]. exists m. auto.
    - destruct (loader_within_late _ _ _ R A B W) as (R1 & A1 & W1). exact (IH _ R1 A1 W1).
    - destruct (own_within_late _ _ _ R A CA B W) as (R1 & A1 & m1 & L & W1). destruct (IH _ R1 A1 W1) as (R2 & A2 & m2 & L2 & W2).
      split; [exact R2|]. split; [exact A2|]. exists m2. split; [lia|exact W2].
  Qed.

  (** ** Told means alert *)
  Lemma split_sends (h1 h2 : list (@revent T)) : sends (h1 ++ h2) = sends h1 + sends h2.
  Proof. induction h1 as [|e h1 IH]; [reflexivity|]. cbn. destruct e; cbn; lia. Qed.

  (** A signal after the source was done, a [wait()] before that. *)
  Lemma told_behind (h h1 h2 : list (@revent T)) : h = h1 ++ ESend :: h2 -> In EDone h2 -> ~ In EDone (before_wait h) -> behind h.
  Proof.
    intros -> D N. unfold behind. revert N. induction h1 as [|e h1 IH]; cbn; intros N.
    - pose proof (sends_before_wait h2). lia.
    - destruct e; cbn in *; try (specialize (IH N); lia). exfalso. apply N, in_or_app. right. now right.
  Qed.

  (** A stored [advance] future was stored before the source was done. *)
  Definition opened (a : @astate T) : Prop :=
    match a_pc a with
    | AParked | AFut | AFut2 | AWake => a_fut a <> None -> ~ In EDone (before_wait (a_hist a))
    | _ => True
    end.
  Lemma stays_opened x n a qx : version x < modulus -> ahead (sh_heap x) (sh_tail x) b qx -> areach modulus x b n a -> opened a.
  Proof.
    intros V A R. induction R as [|s s' R IH St]; [intros F; now destruct F|].
    pose proof (ai_shared _ _ _ _ _ (areach_inv modulus _ _ _ late_positive _ _ _ eq_refl V A R)) as X.
    destruct St; cbn in *; auto.
    - destruct (loader_waited _ _ _ h H) as (E & _). unfold opened in *. cbn in *. now rewrite E.
    - intros _ D. apply before_wait_in in D. apply (x_done _ _ _ _ X) in D. cbn in D. congruence.
  Qed.

  Lemma told_alert l : lreach modulus p x0 b l -> done_flag x0 = true \/ told l -> alert l.
  Proof.
    intros R AT. pose proof (own_waits modulus p x0 b q version_small start sincere _ R) as Q.
    destruct l as [b' st s|g o a|b' s]; [| |exact I].
    - destruct Q as (-> & S & _).
      pose proof (sreach_inv modulus _ q late_positive _ _ _ eq_refl version_small start S) as [X _ _ P _].
      destruct AT as [D|(h1 & h2 & E & D)]; cbn.
      + pose proof (stays_quick modulus x0 b q version_small start s D S) as (F & K).
        split; [apply (x_done _ _ _ _ X); exact (done_stays modulus x0 b s D S)|].
        rewrite F. destruct (s_pc s); try contradiction; try exact I; intros N; now destruct N.
      + cbn in E. assert (D' : In EDone (s_hist s)) by (rewrite E; apply in_or_app; right; now right).
        split; [exact D'|]. destruct (s_pc s) eqn:PC; try exact I; cbn in P.
        * destruct (s_fut s); [|congruence]. intros _. exact (told_behind _ _ _ E D (proj2 (proj2 P))).
        * destruct (s_fut s); [|congruence]. intros _. exact (told_behind _ _ _ E D (proj2 (proj2 P))).
        * destruct (s_fut s); [|congruence]. intros _. exact (told_behind _ _ _ E D (proj2 (proj2 P))).
        * exact (told_behind _ _ _ E D (proj2 (proj2 P))).
    - destruct Q as (s & k & S & _ & A & V & H).
      pose proof (areach_inv modulus _ _ _ late_positive _ _ _ eq_refl V H A) as [X _ P F _].
      destruct AT as [D|(h1 & h2 & E & D)]; cbn.
      + pose proof (done_stays modulus x0 b s D S) as D0. pose proof (stays_aquick modulus b _ _ _ D0 A) as K.
        split; [apply (x_done _ _ _ _ X); exact (adone_stays modulus b _ _ _ D0 A)|].
        unfold aquick in K. destruct (a_pc a); try contradiction; try exact I; intros N; congruence.
      + cbn in E. assert (D' : In EDone (a_hist a)) by (rewrite E; apply in_or_app; right; now right).
        split; [exact D'|]. pose proof (stays_opened _ _ _ _ V H A) as K. unfold opened in K.
        destruct (a_pc a); try exact I; intros N; exact (told_behind _ _ _ E D (K N)).
  Qed.

  Lemma within_exists l : lreach modulus p x0 b l -> exists m, within_late l m.
  Proof.
    intros R. pose proof (own_waits modulus p x0 b q version_small start sincere _ R) as Q.
    destruct l as [b' st s|g o a|b' s]; cbn; [eexists; reflexivity| |eexists; reflexivity].
    destruct Q as (s & k & S & _ & A & V & H).
    pose proof (ai_pc _ _ _ _ _ (areach_inv modulus _ _ _ late_positive _ _ _ eq_refl V H A)) as P.
    destruct (a_pc a); cbn in P; try (eexists; reflexivity);
      try (destruct P as ((ss & C & _) & _); eexists; exists (length ss); split; [exists ss; auto|reflexivity]).
    destruct P as (k' & (ss & C & _) & _). eexists. exists (length ss). split; [exists ss; auto|reflexivity].
  Qed.

  (** Whatever it was doing: once the source has said that it is done and has sent
      a signal after that, the parser has its answer within a number of its own
      steps that is known at that point, whatever loaders do. *)
  Theorem C79_told_finishes l : lreach modulus p x0 b l -> done_flag x0 = true \/ told l ->
    exists m, (forall b' st s, l = LLook b' st s -> m = 9 * length (q ++ appended (s_hist s)) + 16) /\
      forall k l', goes_calm modulus k l l' -> m <= k -> sends_since_wait (events l') < modulus -> answered l'.
  Proof.
    intros R AT. pose proof (told_alert l R AT) as AL. destruct (within_exists l R) as (m & W).
    assert (X : exists M, m <= M /\ forall b' st s, l = LLook b' st s -> M = 9 * length (q ++ appended (s_hist s)) + 16).
    { destruct l as [b' st s|g o a|b' s]; cbn in W.
      - eexists. split; [|intros b2 st2 s2 E; injection E as _ _ <-; reflexivity].
        assert (srank_late (s_pc s) <= 8) by (destruct (s_pc s); cbn; lia). lia.
      - exists m. split; [lia|discriminate].
      - exists m. split; [lia|discriminate]. }
    destruct X as (M & L & E). exists M. split; [exact E|]. intros k l' G LE CALM.
    destruct (goes_within_late _ _ _ _ G R AL W) as (R' & A' & m' & L' & W').
    destruct (C79_progress l' R') as [A|(l2 & S2)]; [exact A|]. exfalso.
    destruct (own_within_late _ _ _ R' A' CALM S2 W') as (_ & _ & m2 & L2 & _). lia.
  Qed.
End Late.

(** The signal is needed: a parser that was about to wait when the source became
    done, without a signal after that, polls for ever. *)
Theorem C79_signal_needed modulus : 0 < modulus ->
  exists l : lstate (@any_looker nat), lreach modulus any_looker (fresh [None] 0) buffer_new l /\ In EDone (events l) /\
    forall k, exists l', goes_calm modulus k l l' /\ ~ answered l'.
Proof.
  intros M.
  set (x w r := @Shared nat [None] 0 0 true r 0 w).
  set (i := gsegments buffer_new).
  set (h := EDone :: ELook :: EWait :: ENext :: @nil (@revent nat)).
  set (s c w r := LLook (p := any_looker) buffer_new tt (SState (x w r) i (Some 0) c h)).
  exists (s SParked true false). split; [|split; [now left|]].
  - pose proof (lr_init modulus (@any_looker nat) (fresh (@cons (option (list nat * nat)) None nil) 0) buffer_new) as R. tidy_live R.
    eapply lr_step in R; [|apply lv_poll; [apply ss_next|discriminate]]. tidy_live R.
    eapply lr_step in R; [|apply lv_poll; [apply ss_poll|discriminate]]. tidy_live R.
    eapply lr_step in R; [|apply lv_poll; [apply ss_fut_none|discriminate]]. tidy_live R.
    eapply lr_step in R; [|apply lv_poll; [eapply ss_next1_none; reflexivity|discriminate]]. tidy_live R.
    eapply lr_step in R; [|apply lv_poll; [apply ss_wait|discriminate]]. tidy_live R.
    eapply lr_step in R; [|apply lv_poll; [eapply ss_next2_none; reflexivity|discriminate]]. tidy_live R.
    eapply lr_step in R; [|apply lv_poll; [apply ss_not_done; reflexivity|discriminate]]. tidy_live R.
    eapply lr_step in R; [|apply lv_poll; [apply ss_set|discriminate]]. tidy_live R.
    eapply lr_step in R; [|apply lv_loader; apply ls_done]. tidy_live R. exact R.
  - assert (S1 : forall w r, own modulus (s SParked w r) (s SFut false r)).
    { intros w r. split; [apply lv_poll; [apply ss_poll|discriminate]|intros B; inversion B]. }
    assert (S2 : forall w r, own modulus (s SFut w r) (s SFut2 w r)).
    { intros w r. split; [apply lv_poll; [apply ss_fut_same; reflexivity|discriminate]|intros B; inversion B]. }
    assert (S3 : forall w r, own modulus (s SFut2 w r) (s SParked w true)).
    { intros w r. split; [apply lv_poll; [apply ss_fut2_pending; reflexivity|discriminate]|intros B; inversion B]. }
    assert (K : forall k w r, (exists l', goes_calm modulus k (s SParked w r) l' /\ ~ answered l') /\
                              (exists l', goes_calm modulus k (s SFut w r) l' /\ ~ answered l') /\
                              (exists l', goes_calm modulus k (s SFut2 w r) l' /\ ~ answered l')).
    { induction k as [|k IH]; intros w r.
      - split; [|split]; (eexists; split; [constructor|cbn; auto]).
      - split; [|split].
        + destruct (IH false r) as (_ & (l' & G & N) & _). exists l'. split; [|exact N]. eapply gc_own; [cbn; lia|apply S1|exact G].
        + destruct (IH w r) as (_ & _ & l' & G & N). exists l'. split; [|exact N]. eapply gc_own; [cbn; lia|apply S2|exact G].
        + destruct (IH w true) as ((l' & G & N) & _). exists l'. split; [|exact N]. eapply gc_own; [cbn; lia|apply S3|exact G]. }
    intros k. apply K.
Qed.

(** The same parser, told after that: it meets the hypotheses, and misses. *)
Example C79_case_told :
  exists l : lstate (@any_looker nat), lreach 2 any_looker (fresh [None] 0) buffer_new l /\ told l /\
    exists l', goes_calm 2 6 l l' /\ answered l'.
Proof.
  eexists. split; [|split].
  - pose proof (lr_init 2 (@any_looker nat) (fresh (@cons (option (list nat * nat)) None nil) 0) buffer_new) as R. tidy_live R.
    eapply lr_step in R; [|apply lv_poll; [apply ss_next|discriminate]]. tidy_live R.
    eapply lr_step in R; [|apply lv_poll; [apply ss_poll|discriminate]]. tidy_live R.
    eapply lr_step in R; [|apply lv_poll; [apply ss_fut_none|discriminate]]. tidy_live R.
    eapply lr_step in R; [|apply lv_poll; [eapply ss_next1_none; reflexivity|discriminate]]. tidy_live R.
    eapply lr_step in R; [|apply lv_poll; [apply ss_wait|discriminate]]. tidy_live R.
    eapply lr_step in R; [|apply lv_poll; [eapply ss_next2_none; reflexivity|discriminate]]. tidy_live R.
    eapply lr_step in R; [|apply lv_poll; [apply ss_not_done; reflexivity|discriminate]]. tidy_live R.
    eapply lr_step in R; [|apply lv_poll; [apply ss_set|discriminate]]. tidy_live R.
    eapply lr_step in R; [|apply lv_loader; apply ls_done]. tidy_live R.
    eapply lr_step in R; [|apply lv_loader; apply ls_send]. tidy_live R. exact R.
  - exists [], [EDone; ELook; EWait; ENext]. split; [reflexivity|now left].
  - eexists. split.
    + eapply gc_own; [cbn; lia|split; [apply lv_poll; [apply ss_poll|discriminate]|intros B; inversion B]|].
      eapply gc_own; [cbn; lia|split; [apply lv_poll; [apply ss_fut_ready; discriminate|discriminate]|intros B; inversion B]|].
      eapply gc_own; [cbn; lia|split; [apply lv_poll; [eapply ss_next1_none; reflexivity|discriminate]|intros B; inversion B]|].
      eapply gc_own; [cbn; lia|split; [apply lv_poll; [apply ss_wait|discriminate]|intros B; inversion B]|].
      eapply gc_own; [cbn; lia|split; [apply lv_poll; [eapply ss_next2_none; reflexivity|discriminate]|intros B; inversion B]|].
      eapply gc_own; [cbn; lia|split; [apply lv_answer with (r := None); [apply ss_done; reflexivity|reflexivity]|intros B; inversion B]|].
      apply gc_here.
    + exact I.
Qed.

Print Assumptions C79_progress.
Print Assumptions C79_told_finishes.
Print Assumptions C79_signal_needed.
