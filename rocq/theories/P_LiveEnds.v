(** * P_LiveEnds: property C79, on a source that is done the parser must get to
    its answer, whatever the loaders do meanwhile. *)
From Coq Require Import Lia.
From Verif Require Import S_LiveEnds L_Live P_Runner P_Live L_LiveOwn P_LiveLate.

Section Ends.
  Context {T O : Type} (p : @looker T O).
  Variables (modulus : nat) (x0 : @shared T) (b : gbuffer) (q : list (list T)).
  Hypothesis version_small : version x0 < modulus.
  Hypothesis start : ahead (sh_heap x0) (sh_tail x0) b q.
  Hypothesis sincere : honest p.
  Hypothesis is_done : done_flag x0 = true.

  Lemma positive : 0 < modulus. Proof. lia. Qed.

  Lemma loader_still (x : @shared T) e x' : loader_step modulus x e x' -> done_flag x = true ->
    sh_heap x' = sh_heap x /\ sh_tail x' = sh_tail x.
  Proof. destruct 1; cbn; auto. discriminate. Qed.

  Definition srank (c : spc) : nat :=
    match c with
    | SIdle => 7 | SParked => 6 | SFut => 5 | SNext1 => 4 | SWait => 3 | SNext2 _ => 2 | SDone _ => 1 | _ => 0
    end.

  (** At most [m] steps of the parser are left. *)
  Definition within (l : lstate p) (m : nat) : Prop :=
    match l with
    | LLook _ _ s => m = 7 * (length q - length (returned (s_hist s))) + srank (s_pc s) + (length q + 6)
    | LAdvance _ _ a =>
        match a_pc a with
        | AParked => exists ss, chain (sh_heap (a_sh a)) (head_node (a_buf a)) ss (sh_tail (a_sh a)) /\ m = length ss + 6
        | AFut => exists ss, chain (sh_heap (a_sh a)) (head_node (a_buf a)) ss (sh_tail (a_sh a)) /\ m = length ss + 5
        | AWait => exists ss, chain (sh_heap (a_sh a)) (head_node (a_buf a)) ss (sh_tail (a_sh a)) /\ m = length ss + 4
        | ALoop ad => exists ss, chain (sh_heap (a_sh a)) (ad_node ad) ss (sh_tail (a_sh a)) /\ off_ok (ad_offset ad) ss /\ m = length ss + 3
        | ACheck _ => m = 1
        | _ => m = 0
        end
    | LMiss _ _ => m = 0
    end.

  Lemma loader_within l l' m : lreach modulus p x0 b l -> by_loader modulus l l' -> within l m ->
    lreach modulus p x0 b l' /\ within l' m.
  Proof.
    intros R B W.
    pose proof (own_waits modulus p x0 b q version_small start sincere _ R) as Q.
    assert (R' : lreach modulus p x0 b l').
    { eapply lr_step; [exact R|]. destruct B; [now apply lv_loader|now apply lv_advanced|now apply lv_missed]. }
    split; [exact R'|]. destruct B as [b' st x e x' i f c h L|g o x e x' b' n f c h L|b' x e x' i f c h L]; cbn in *.
    - now rewrite (loader_returned modulus _ _ _ _ L).
    - destruct Q as (s & k & S & _ & A & V & H).
      pose proof (adone_stays modulus b _ _ _ (done_stays modulus x0 b s is_done S) A) as D. cbn in D.
      destruct (loader_still _ _ _ L D) as (-> & ->). exact W.
    - exact W.
  Qed.

  Lemma own_within l l' m : lreach modulus p x0 b l -> own modulus l l' -> within l m ->
    lreach modulus p x0 b l' /\ exists m', m' < m /\ within l' m'.
  Proof.
    intros R (St & NL) W.
    pose proof (own_waits modulus p x0 b q version_small start sincere _ R) as Q.
    pose proof (own_no_panic modulus p x0 b q version_small start sincere _ R) as NP.
    assert (R' : lreach modulus p x0 b l') by (eapply lr_step; eauto).
    pose proof (own_no_panic modulus p x0 b q version_small start sincere _ R') as NP'.
    split; [exact R'|]. destruct sincere as (_ & G & _).
    destruct St as [b' st x e x' i f c h L|b' st s s' S' NI|b' st s s' r S' H|g o a a' A' NR|g o x e x' b' n f c h L|b' x e x' i f c h L].
    - destruct NL. now constructor.
    - cbn in *. destruct Q as (-> & S & _). pose proof (stays_quick modulus x0 b q version_small start s is_done S) as K.
      pose proof (done_stays modulus x0 b s is_done S) as D.
      rewrite (step_returned modulus _ _ S' NI).
      destruct K as (F & K). destruct S'; cbn in *; subst; try contradiction; try congruence;
        try (eexists; split; [|reflexivity]; lia).
      destruct NL. now constructor.
    - destruct Q as (-> & S & _). assert (S2 : sreach modulus x0 b s') by (eapply sr_step; eauto).
      assert (LE : length (returned (s_hist s')) <= length q).
      { destruct (C56_in_order modulus x0 b q version_small start s' S2) as (t & E).
        rewrite (done_appended modulus x0 b q version_small start s' is_done S2), app_nil_r in E. rewrite <- E, app_length. lia. }
      assert (PC : 1 <= srank (s_pc s) /\ (r <> None -> srank (s_pc s) <= 4)).
      { destruct S'; cbn in H |- *; try (apply (f_equal (@length _)) in H; cbn in H; lia); try (injection H as <-); try discriminate; try lia.
        destruct e as [e|]; cbn in H; [injection H as ->|apply (f_equal (@length _)) in H; cbn in H; lia]. inversion H0. }
      rewrite H in LE. cbn in W. destruct r as [sg|].
      + cbn in LE. rewrite app_length in LE. cbn in LE. unfold after. destruct (lk_step p st (Some sg)) as [st'|[n o|]] eqn:K.
        * eexists. split; [|reflexivity]. rewrite H. cbn. rewrite app_length. cbn.
          assert (srank (s_pc s') <= 7) by (destruct (s_pc s'); cbn; lia). destruct PC as (PC & PC'). specialize (PC' ltac:(discriminate)).
          assert (s_pc s' = SIdle \/ s_pc s' <> SIdle) as [->|NE] by (destruct (s_pc s'); auto; right; discriminate); cbn; try lia.
        * pose proof (ahead_now modulus x0 b q version_small start s' S2) as (ss & C & A).
          rewrite (done_appended modulus x0 b q version_small start s' is_done S2), app_nil_r in A.
          exists (length ss + 6). split; [|cbn; exists ss; auto].
          assert (length ss = length q) by (destruct ss; destruct A as (_ & ->); auto). lia.
        * exists 0. split; [lia|reflexivity].
      + unfold after. destruct (G st) as ([n o|] & ->).
        * pose proof (ahead_now modulus x0 b q version_small start s' S2) as (ss & C & A).
          rewrite (done_appended modulus x0 b q version_small start s' is_done S2), app_nil_r in A.
          exists (length ss + 6). split; [|cbn; exists ss; auto].
          assert (length ss = length q) by (destruct ss; destruct A as (_ & ->); auto). lia.
        * exists 0. split; [|reflexivity]. lia.
    - destruct Q as (s & k & S & _ & A & V & H).
      pose proof (done_stays modulus x0 b s is_done S) as D0.
      pose proof (adone_stays modulus b _ _ _ D0 A) as D. pose proof (stays_aquick modulus b _ _ _ D0 A) as K.
      unfold aquick in K. destruct A' as [x e x' bf n f c g1 L| | | | | | | | |x bf n f ad ad' g1 E|x bf n f ad ad' g1 E| | | | |];
        cbn in *; subst; try contradiction; try congruence;
        try (destruct W as (ss & C & ->); eexists; split; [|exists ss; split; [exact C|reflexivity]]; lia);
        try (exists 0; split; [lia|reflexivity]).
      + destruct NL. now constructor.
      + destruct W as (ss & C & ->). exists (length ss + 3). split; [lia|]. exists ss. split; [exact C|]. split; [|reflexivity].
        pose proof (ai_pc _ _ _ _ _ (areach_inv modulus _ _ _ positive _ _ _ eq_refl V H A)) as P. cbn in P.
        destruct P as ((ss1 & C1 & OK & _) & _). destruct (chain_unique _ _ _ _ _ _ C C1) as (-> & _). exact OK.
      + destruct W as (ss & C & OK & ->). destruct (adv_turn_ok _ _ _ _ C OK) as (r & E' & P). rewrite E in E'. injection E' as <-.
        destruct P as (s1 & ss1 & -> & C' & O' & _). exists (length ss1 + 3). split; [cbn; lia|].
        exists ss1. split; [exact C'|]. split; [|reflexivity]. rewrite O'. destruct ss1; cbn; lia.
      + destruct W as (ss & C & OK & ->). exists 1. split; [lia|reflexivity].
    - destruct NL. now constructor.
    - destruct NL. now constructor.
  Qed.

  Lemma goes_within k l l' m : goes modulus k l l' -> lreach modulus p x0 b l -> within l m ->
    lreach modulus p x0 b l' /\ exists m', k + m' <= m /\ within l' m'.
  Proof.
    intros G. revert m. induction G as [l|k l l1 l2 B G IH|k l l1 l2 B G IH]; intros m R W.
    - split; [exact R|]. exists m. auto.
    - destruct (loader_within _ _ _ R B W) as (R1 & W1). exact (IH _ R1 W1).
    - destruct (own_within _ _ _ R B W) as (R1 & m1 & L & W1). destruct (IH _ R1 W1) as (R2 & m2 & L2 & W2).
      split; [exact R2|]. exists m2. split; [lia|exact W2].
  Qed.

  Let first : lstate p := LLook b (lk_init p) (sinit x0 b).

  (** With [n] segments there it takes at most [8 n + 13] steps, however the
      loaders' steps fall between them. *)
  Theorem C79_bounded k l : goes modulus k first l -> k <= 8 * length q + 13.
  Proof.
    intros G. destruct (goes_within _ _ _ _ G (lr_init _ _ _ _) eq_refl) as (_ & m & L & _).
    cbn [s_hist sinit s_pc srank] in L. rewrite start_returned in L. cbn [length] in L. lia.
  Qed.


  (** So it answers: whoever has let it make so many steps has the answer. *)
  Theorem C79_must_finish k l : goes modulus k first l -> 8 * length q + 13 <= k -> answered l.
  Proof.
    intros G LE.
    assert (R : lreach modulus p x0 b l) by (eapply goes_within; [exact G|constructor|reflexivity]).
    destruct (C79_progress p modulus x0 b q version_small start sincere l R) as [A|(l' & S)]; [exact A|]. exfalso.
    assert (G' : goes modulus (k + 1) first l').
    { clear R LE. induction G as [l|k l l1 l2 B G IH|k l l1 l2 B G IH].
      - econstructor 3; [exact S|constructor].
      - econstructor 2; [exact B|exact (IH S)].
      - econstructor 3; [exact B|exact (IH S)]. }
    pose proof (C79_bounded _ _ G'). lia.
  Qed.

  (** The answer stands: nothing but loaders moves afterwards. *)
  Theorem C79_answer_stays l l' : answered l -> lstep modulus l l' -> by_loader (p := p) modulus l l'.
  Proof.
    intros A St. destruct St; cbn in A; try contradiction; try congruence; now constructor.
  Qed.
End Ends.

(** Nothing there and the source done: [any_item] looks, looks again, sees that it
    is done and misses, in seven steps. *)
Example C79_case_bounded :
  let x0 := Shared (@cons (option (list nat * nat)) None nil) 0 0 true false 0 false in
  ahead (sh_heap x0) (sh_tail x0) buffer_new (@nil (list nat)) /\
  exists l, goes 2 7 (LLook (p := any_looker) buffer_new tt (sinit x0 buffer_new)) l /\ answered l.
Proof.
  intros x0. split; [exact start_empty|].
  eexists. split.
  - eapply goes_own; [split; [apply lv_poll; [apply ss_next|discriminate]|intros B; inversion B]|].
    eapply goes_own; [split; [apply lv_poll; [apply ss_poll|discriminate]|intros B; inversion B]|].
    eapply goes_own; [split; [apply lv_poll; [apply ss_fut_none|discriminate]|intros B; inversion B]|].
    eapply goes_own; [split; [apply lv_poll; [eapply ss_next1_none; reflexivity|discriminate]|intros B; inversion B]|].
    eapply goes_own; [split; [apply lv_poll; [apply ss_wait|discriminate]|intros B; inversion B]|].
    eapply goes_own; [split; [apply lv_poll; [eapply ss_next2_none; reflexivity|discriminate]|intros B; inversion B]|].
    eapply goes_own; [split; [apply lv_answer with (r := None); [apply ss_done; reflexivity|reflexivity]|intros B; inversion B]|].
    apply goes_here.
  - exact I.
Qed.

Print Assumptions C79_bounded.
Print Assumptions C79_must_finish.
Print Assumptions C79_answer_stays.
