(** * L_Notify2: the life of a registered waker (C72). *)
From Coq Require Import Lia.
From Verif Require Import M_Notify S_Notify L_Notify.

Section Phase.
  Variable modulus : nat.
  Hypothesis modulus_pos : 0 < modulus.

  Definition early (p : pid) (c : pc) : Prop :=
    match c with PollLoad1 q _ | PollLock q _ | PollInsert q _ => q = p | _ => False end.
  Definition middle (p : pid) (c : pc) : Prop :=
    match c with PollLoad2 q _ _ | PollRemove q _ => q = p | PollUnlock q Pending => q = p | _ => False end.

  Definition SL (p : pid) (s : nstate) : Prop := In p (map snd (slab s)).

  Definition phase (s : nstate) (p : pid) : Prop :=
    let R := In (ERegister p) (hist s) in
    let W := In (EWake p) (hist s) in
    let ER := In (EPollEnd p Ready) (hist s) in
    let EP := In (EPollEnd p Pending) (hist s) in
    (next_pid s <= p /\ ~ R /\ ~ W /\ ~ ER /\ ~ EP /\ ~ SL p s) \/
    ((exists t, early p (threads s t)) /\ ~ R /\ ~ W /\ ~ ER /\ ~ EP /\ ~ SL p s) \/
    ((exists t, middle p (threads s t)) /\ R /\ ~ W /\ ~ ER /\ ~ EP /\ SL p s) \/
    ((exists t, threads s t = PollUnlock p Ready) /\ R /\ ~ W /\ ~ ER /\ ~ EP /\ ~ SL p s) \/
    (~ W /\ ER /\ ~ EP /\ ~ SL p s) \/
    (R /\ EP /\ ~ ER /\ (SL p s /\ ~ W \/ ~ SL p s /\ W)).

  Lemma early_pid p c : early p c -> pid_of c = Some p.
  Proof. destruct c; cbn; intros; try contradiction; congruence. Qed.
  Lemma middle_pid p c : middle p c -> pid_of c = Some p.
  Proof. destruct c as [| | | | | | | | | |q r|]; cbn; intros; try contradiction; try congruence. destruct r; [contradiction|congruence]. Qed.

  (** What the phase is when a thread is polling with [p]. *)
  Lemma phase_of s t p : inv modulus s -> phase s p -> pid_of (threads s t) = Some p ->
    let ends := ~ In (EPollEnd p Ready) (hist s) /\ ~ In (EPollEnd p Pending) (hist s) /\ ~ In (EWake p) (hist s) in
    (early p (threads s t) /\ ~ In (ERegister p) (hist s) /\ ~ SL p s /\ ends) \/
    (middle p (threads s t) /\ In (ERegister p) (hist s) /\ SL p s /\ ends) \/
    (threads s t = PollUnlock p Ready /\ In (ERegister p) (hist s) /\ ~ SL p s /\ ends).
  Proof.
    intros I P Q ends. pose proof (iv_pid_lt _ _ I _ _ Q) as LT. pose proof (iv_pid_end _ _ I _ _ Ready Q) as E1.
    pose proof (iv_pid_end _ _ I _ _ Pending Q) as E2. unfold ends.
    destruct P as [P|[P|[P|[P|[P|P]]]]].
    - exfalso. lia.
    - destruct P as [[t' T] P]. pose proof (iv_pid_inj _ _ I _ _ _ Q (early_pid _ _ T)) as <-. left. tauto.
    - destruct P as [[t' T] P]. pose proof (iv_pid_inj _ _ I _ _ _ Q (middle_pid _ _ T)) as <-. right. left. tauto.
    - destruct P as [[t' T] P]. assert (pid_of (threads s t') = Some p) as Q' by now rewrite T.
      pose proof (iv_pid_inj _ _ I _ _ _ Q Q') as <-. right. right. tauto.
    - exfalso. tauto.
    - exfalso. tauto.
  Qed.

  Definition mentions (p : pid) (e : nevent) : bool :=
    match e with ERegister q | EWake q | EPollEnd q _ => Nat.eqb q p | _ => false end.

  (** Other wakers are not touched. *)
  Lemma phase_frame s s' p : phase s p ->
    (next_pid s <= p -> next_pid s' <= p) ->
    (forall t, pid_of (threads s t) = Some p -> threads s' t = threads s t) ->
    (forall e, mentions p e = true -> In e (hist s') <-> In e (hist s)) ->
    (SL p s' <-> SL p s) -> phase s' p.
  Proof.
    intros P N T H S. unfold phase in *.
    pose proof (H (ERegister p) (Nat.eqb_refl p)) as H1. pose proof (H (EWake p) (Nat.eqb_refl p)) as H2.
    pose proof (H (EPollEnd p Ready) (Nat.eqb_refl p)) as H3. pose proof (H (EPollEnd p Pending) (Nat.eqb_refl p)) as H4.
    rewrite H1, H2, H3, H4, S. destruct P as [P|[P|[P|[P|[P|P]]]]].
    - left. tauto.
    - right. left. destruct P as [[t Q] P]. split; [|exact P]. exists t. now rewrite (T t (early_pid _ _ Q)).
    - right. right. left. destruct P as [[t Q] P]. split; [|exact P]. exists t. now rewrite (T t (middle_pid _ _ Q)).
    - right. right. right. left. destruct P as [[t Q] P]. split; [|exact P]. exists t. rewrite T; [exact Q|now rewrite Q].
    - right. right. right. right. left. exact P.
    - right. right. right. right. right. exact P.
  Qed.

  Lemma in_cons_other p e h x : mentions p x = false -> mentions p e = true -> In e (x :: h) <-> In e h.
  Proof. intros A B. split; [intros [->|Q]; [congruence|exact Q]|now right]. Qed.

  Lemma moved s t c q p : inv modulus s -> pid_of (threads s t) = Some q -> q <> p ->
    forall t', pid_of (threads s t') = Some p -> upd (threads s) t c t' = threads s t'.
  Proof. intros I Q N t' Q'. apply upd_other. intros ->. congruence. Qed.
  Lemma moved0 s t c p : pid_of (threads s t) = None ->
    forall t', pid_of (threads s t') = Some p -> upd (threads s) t c t' = threads s t'.
  Proof. intros Q t' Q'. apply upd_other. intros ->. congruence. Qed.

  Lemma sl_filter sl k p p' : NoDup (map fst sl) -> NoDup (map snd sl) -> In (k, p) sl ->
    In p' (map snd (filter (fun e : nat * pid => negb (Nat.eqb (fst e) k)) sl)) <-> In p' (map snd sl) /\ p' <> p.
  Proof.
    intros N1 N2 Q. split.
    - intros H. apply in_map_iff in H as [[k' q] [E H]]. cbn in E. subst q. apply filter_In in H as [H K]. cbn in K.
      split; [apply in_map_iff; now exists (k', p')|]. intros ->.
      assert (k' = k); [|subst; now rewrite Nat.eqb_refl in K].
      clear -N2 Q H. induction sl as [|[a b] sl IH]; [destruct Q|]. cbn in N2. inversion N2 as [|? ? X Y]; subst.
      destruct Q as [Q|Q], H as [H|H].
      + congruence.
      + injection Q as -> ->. exfalso. apply X. apply in_map_iff. now exists (k', p).
      + injection H as -> ->. exfalso. apply X. apply in_map_iff. now exists (k, p).
      + auto.
    - intros [H NE]. apply in_map_iff in H as [[k' q] [E H]]. cbn in E. subst q. apply in_map_iff. exists (k', p'). split; [reflexivity|].
      apply filter_In. split; [exact H|]. cbn. destruct (Nat.eqb_spec k' k) as [->|]; [|reflexivity]. exfalso. apply NE.
      clear -N1 Q H. induction sl as [|[a b] sl IH]; [destruct Q|]. cbn in N1. inversion N1 as [|? ? X Y]; subst.
      destruct Q as [Q|Q], H as [H|H].
      + congruence.
      + injection Q as -> ->. exfalso. apply X. apply in_map_iff. now exists (k, p').
      + injection H as -> ->. exfalso. apply X. apply in_map_iff. now exists (k, p).
      + auto.
  Qed.

  Lemma nodup_snd_filter (sl : list (nat * pid)) f : NoDup (map snd sl) -> NoDup (map snd (filter f sl)).
  Proof.
    induction sl as [|[k p] sl IH]; cbn; auto. intros N. inversion N; subst.
    destruct (f (k, p)); cbn; auto. constructor; auto.
    intros Q. apply H1. apply in_map_iff in Q as ([k' p'] & E & Q). cbn in E. subst.
    apply filter_In in Q as (Q & _). apply in_map_iff. now exists (k', p).
  Qed.

  Definition life (s : nstate) : Prop := NoDup (map snd (slab s)) /\ forall p, phase s p.

  Lemma life_init : life ninit.
  Proof. split; [constructor|]. intros p. left. cbn. unfold SL. cbn. repeat split; auto; lia. Qed.

  Lemma life_step t s s' : inv modulus s -> life s -> nstep modulus t s s' -> life s'.
  Proof.
    intros I [ND L] ST.
    assert (OUT : forall p, SL p s -> pid_of (threads s t) <> Some p -> holds_lock (threads s t) ->
                  In (EPollEnd p Pending) (hist s) /\ ~ In (EWake p) (hist s) /\ ~ In (EPollEnd p Ready) (hist s)).
    { intros p S NQ HL. apply (iv_lock _ _ I) in HL.
      destruct (L p) as [P|[P|[P|[P|[P|P]]]]]; try tauto.
      exfalso. destruct P as [[t' M] _]. assert (holds_lock (threads s t')) as HL'.
      { clear -M. destruct (threads s t') as [| | | | | | | | | |q r|]; cbn in *; auto. }
      apply (iv_lock _ _ I) in HL'. rewrite HL in HL'. injection HL' as <-. apply NQ. now apply middle_pid. }
    inversion ST; subst; cbn [slab hist threads next_pid];
      match goal with Q : threads s t = _ |- _ => pose proof Q as TH end.
    - (* wait *)
      split; [exact ND|]. intros p. apply (phase_frame s); auto; try reflexivity; cbn; try tauto.
      apply moved0. now rewrite TH.
    - (* wait load *)
      split; [exact ND|]. intros p. apply (phase_frame s); auto; try reflexivity; cbn [threads hist].
      + apply moved0. now rewrite TH.
      + intros e M. now apply in_cons_other with p.
    - (* send *)
      split; [exact ND|]. intros p. apply (phase_frame s); auto; try reflexivity; cbn [threads hist].
      + apply moved0. now rewrite TH.
      + intros e M. now apply in_cons_other with p.
    - (* send add *)
      split; [exact ND|]. intros p. apply (phase_frame s); auto; try reflexivity; cbn [threads hist].
      + apply moved0. now rewrite TH.
      + intros e M. now apply in_cons_other with p.
    - (* send lock *)
      split; [exact ND|]. intros p. apply (phase_frame s); auto; try reflexivity; cbn; try tauto.
      apply moved0. now rewrite TH.
    - (* wake *)
      match goal with H : slab s = _ |- _ => rename H into SE end.
      assert (IN : SL p s) by (unfold SL; rewrite SE, map_app; apply in_or_app; right; now left).
      assert (ND' : NoDup (map snd (sl1 ++ sl2)) /\ ~ In p (map snd (sl1 ++ sl2))).
      { rewrite SE, map_app in ND. cbn in ND. split.
        - rewrite map_app. now apply NoDup_remove_1 in ND.
        - rewrite map_app. now apply NoDup_remove_2 in ND. }
      split; [tauto|]. intros p'. destruct (Nat.eq_dec p p') as [<-|NE].
      + destruct (OUT p IN) as [A [B C]]; [now rewrite TH|now rewrite TH|].
        right. right. right. right. right. cbn [hist]. split; [right|split; [right; exact A|split]].
        * apply in_map_iff in IN as [[k' q] [E IN]]. cbn in E. subst q. exact (iv_slab_reg _ _ I _ _ IN).
        * intros [Q|Q]; [discriminate|tauto].
        * right. split; [unfold SL; cbn; tauto|now left].
      + apply (phase_frame s); auto; cbn [threads hist].
        * intros e M. apply in_cons_other with p'; [|exact M]. cbn. now apply Nat.eqb_neq.
        * unfold SL. cbn [slab]. rewrite SE, !map_app, !in_app_iff. cbn. intuition congruence.
    - (* send end *)
      split; [exact ND|]. intros p. apply (phase_frame s); auto; try reflexivity; cbn [threads hist].
      + apply moved0. now rewrite TH.
      + intros e M. now apply in_cons_other with p.
    - (* poll *)
      split; [exact ND|]. intros p. destruct (Nat.eq_dec p (next_pid s)) as [->|NE].
      + right. left. destruct (L (next_pid s)) as [P|[P|[P|[P|[P|P]]]]].
        * split; [exists t; cbn; rewrite upd_same; reflexivity|]. unfold SL in *. cbn [hist slab].
          repeat split; try (intros [Q|Q]; [discriminate|tauto]); tauto.
        * exfalso. destruct P as [[t' T] _]. pose proof (iv_pid_lt _ _ I _ _ (early_pid _ _ T)). lia.
        * exfalso. destruct P as [[t' T] _]. pose proof (iv_pid_lt _ _ I _ _ (middle_pid _ _ T)). lia.
        * exfalso. destruct P as [[t' T] _]. assert (pid_of (threads s t') = Some (next_pid s)) as Q by now rewrite T.
          pose proof (iv_pid_lt _ _ I _ _ Q). lia.
        * exfalso. destruct P as [_ [P _]]. pose proof (iv_end_lt _ _ I _ _ P). lia.
        * exfalso. destruct P as [_ [P _]]. pose proof (iv_end_lt _ _ I _ _ P). lia.
      + apply (phase_frame s); auto; try reflexivity; cbn [threads hist next_pid].
        * lia.
        * apply moved0. now rewrite TH.
        * intros e M. now apply in_cons_other with p.
    - (* load 1 *)
      assert (PT : pid_of (threads s t) = Some p) by now rewrite TH.
      destruct (phase_of _ _ _ I (L p) PT) as [P|[P|P]]; rewrite TH in P; cbn in P;
        [|exfalso; destruct P; contradiction|exfalso; destruct P; discriminate].
      destruct (Nat.eqb_spec (nth w (waits s) 0) (version s)) as [E|E]; cbn [slab hist threads next_pid].
      + split; [exact ND|]. intros p'. destruct (Nat.eq_dec p p') as [<-|NE].
        * right. left. split; [exists t; cbn; rewrite upd_same; reflexivity|]. unfold SL in *. cbn [hist slab]. tauto.
        * apply (phase_frame s); auto; try reflexivity; cbn [threads hist]; try tauto. now apply (moved s t _ p p').
      + split; [exact ND|]. intros p'. destruct (Nat.eq_dec p p') as [<-|NE].
        * right. right. right. right. left. unfold SL in *. cbn [hist slab].
          repeat split; try (intros [Q|Q]; [discriminate|tauto]); [now left|tauto].
        * apply (phase_frame s); auto; try reflexivity; cbn [threads hist].
          -- now apply (moved s t _ p p').
          -- intros e M. apply in_cons_other with p'; [|exact M]. cbn. now apply Nat.eqb_neq.
    - (* poll lock *)
      assert (PT : pid_of (threads s t) = Some p) by now rewrite TH.
      destruct (phase_of _ _ _ I (L p) PT) as [P|[P|P]]; rewrite TH in P; cbn in P;
        [|exfalso; destruct P; contradiction|exfalso; destruct P; discriminate].
      split; [exact ND|]. intros p'. destruct (Nat.eq_dec p p') as [<-|NE].
      + right. left. split; [exists t; cbn; rewrite upd_same; reflexivity|]. unfold SL in *. cbn [hist slab]. tauto.
      + apply (phase_frame s); auto; try reflexivity; cbn [threads hist]; try tauto. now apply (moved s t _ p p').
    - (* insert *)
      assert (PT : pid_of (threads s t) = Some p) by now rewrite TH.
      destruct (phase_of _ _ _ I (L p) PT) as [P|[P|P]]; rewrite TH in P; cbn in P;
        [|exfalso; destruct P; contradiction|exfalso; destruct P; discriminate].
      unfold SL in P. split; [cbn; constructor; tauto|]. intros p'. destruct (Nat.eq_dec p p') as [<-|NE].
      + right. right. left. split; [exists t; cbn; rewrite upd_same; reflexivity|]. unfold SL in *. cbn [hist slab].
        split; [now left|]. repeat split; try (intros [Q|Q]; [discriminate|tauto]). now left.
      + apply (phase_frame s); auto; cbn [threads hist].
        * now apply (moved s t _ p p').
        * intros e M. apply in_cons_other with p'; [|exact M]. cbn. now apply Nat.eqb_neq.
        * unfold SL. cbn. intuition congruence.
    - (* load 2 *)
      assert (PT : pid_of (threads s t) = Some p) by now rewrite TH.
      destruct (phase_of _ _ _ I (L p) PT) as [P|[P|P]]; rewrite TH in P; cbn in P;
        [exfalso; destruct P; contradiction| |exfalso; destruct P; discriminate].
      split; [exact ND|]. intros p'. destruct (Nat.eq_dec p p') as [<-|NE].
      + right. right. left. split; [exists t; cbn; rewrite upd_same; destruct (Nat.eqb _ _); reflexivity|].
        unfold SL in *. cbn [hist slab]. tauto.
      + apply (phase_frame s); auto; try reflexivity; cbn [threads hist]; try tauto. now apply (moved s t _ p p').
    - (* remove *)
      assert (PT : pid_of (threads s t) = Some p) by now rewrite TH.
      destruct (phase_of _ _ _ I (L p) PT) as [P|[P|P]]; rewrite TH in P; cbn in P;
        [exfalso; destruct P; contradiction| |exfalso; destruct P; discriminate].
      pose proof (iv_pc _ _ I t) as PC. rewrite TH in PC. destruct PC as [PS _].
      assert (X : existsb (fun e => Nat.eqb (fst e) k) (slab s) = true).
      { apply existsb_exists. exists (k, p). split; auto. apply Nat.eqb_refl. }
      rewrite X. split; [now apply nodup_snd_filter|]. intros p'.
      pose proof (sl_filter _ _ _ p' (iv_keys _ _ I) ND PS) as SF.
      destruct (Nat.eq_dec p p') as [<-|NE].
      + right. right. right. left. split; [exists t; cbn; rewrite upd_same; reflexivity|]. unfold SL in *. cbn [hist slab]. tauto.
      + apply (phase_frame s); auto; cbn [threads hist]; try tauto.
        * now apply (moved s t _ p p').
        * unfold SL. cbn [slab]. rewrite SF. intuition.
    - (* unlock *)
      assert (PT : pid_of (threads s t) = Some p) by now rewrite TH.
      split; [exact ND|]. intros p'. destruct (Nat.eq_dec p p') as [<-|NE].
      + destruct (phase_of _ _ _ I (L p) PT) as [P|[P|P]]; rewrite TH in P; cbn in P; [exfalso; destruct P; contradiction| |].
        * destruct r; [exfalso; destruct P; contradiction|].
          right. right. right. right. right. unfold SL in *. cbn [hist slab].
          split; [right; tauto|]. split; [now left|]. split; [intros [Q|Q]; [discriminate|tauto]|]. left. split; [tauto|].
          intros [Q|Q]; [discriminate|tauto].
        * destruct P as [E P]. injection E as ->.
          right. right. right. right. left. unfold SL in *. cbn [hist slab].
          split; [intros [Q|Q]; [discriminate|tauto]|]. split; [now left|]. split; [intros [Q|Q]; [discriminate|tauto]|tauto].
      + apply (phase_frame s); auto; try reflexivity; cbn [threads hist].
        * now apply (moved s t _ p p').
        * intros e M. apply in_cons_other with p'; [|exact M]. cbn. now apply Nat.eqb_neq.
  Qed.

  Lemma life_reach s : nreach modulus s -> life s.
  Proof. induction 1 as [|t s s' R IH ST]; [apply life_init|]. eapply life_step; eauto. now apply inv_reach. Qed.

  (** The state in which an event was added. *)
  Lemma reach_event s : nreach modulus s -> forall a e b, hist s = a ++ e :: b ->
    exists t s0 s1, nreach modulus s0 /\ hist s0 = b /\ nstep modulus t s0 s1 /\ hist s1 = e :: b.
  Proof.
    induction 1 as [|t s s' R IH ST]; intros a e b E.
    - cbn in E. destruct a; discriminate.
    - destruct (hist_step modulus t s s' ST) as [Q|(x & Q & _)]; rewrite Q in E; [eauto|].
      destruct a as [|y a]; cbn in E.
      + injection E as -> E. exists t, s, s'. subst b. auto.
      + injection E as -> E. eauto.
  Qed.

  Lemma wake_event s a p b : nreach modulus s -> hist s = a ++ EWake p :: b ->
    In (ERegister p) b /\ In (EPollEnd p Pending) b /\ ~ In (EWake p) b.
  Proof.
    intros R E. destruct (reach_event s R _ _ _ E) as (t & s0 & s1 & R0 & E0 & ST & E1).
    pose proof (inv_reach modulus modulus_pos _ R0) as I. pose proof (life_reach _ R0) as [ND L].
    assert (X : exists n k sl1 sl2, threads s0 t = SendDrain n /\ slab s0 = sl1 ++ (k, p) :: sl2).
    { inversion ST; subst; cbn in E1;
        try (apply (f_equal (@length _)) in E1; cbn in E1; lia); try discriminate E1.
      - injection E1 as <-. eauto 6.
      - destruct (Nat.eqb _ _); cbn in E1; [apply (f_equal (@length _)) in E1; cbn in E1; lia|discriminate E1]. }
    destruct X as (n & k & sl1 & sl2 & TH & SE).
    assert (IN : In (k, p) (slab s0)) by (rewrite SE; apply in_or_app; right; now left).
    assert (INS : SL p s0) by (apply in_map_iff; now exists (k, p)).
    assert (HL : lock s0 = Some t) by (apply (iv_lock _ _ I); now rewrite TH).
    rewrite <- E0. split; [exact (iv_slab_reg _ _ I _ _ IN)|].
    destruct (L p) as [P|[P|[P|[P|[P|P]]]]]; try tauto.
    exfalso. destruct P as [[t' M] _]. assert (holds_lock (threads s0 t')) as HL'.
    { clear -M. destruct (threads s0 t') as [| | | | | | | | | |q r|]; cbn in *; auto. }
    apply (iv_lock _ _ I) in HL'. rewrite HL in HL'. injection HL' as <-. rewrite TH in M. contradiction.
  Qed.

  Lemma wake_once s a p b : nreach modulus s -> hist s = a ++ EWake p :: b -> ~ In (EWake p) a.
  Proof.
    intros R E Q. apply in_split in Q as (a1 & a2 & ->). rewrite <- app_assoc in E. cbn in E.
    destruct (wake_event s _ _ _ R E) as (_ & _ & N). apply N. apply in_or_app. right. now left.
  Qed.

  (** Who is in the list when nobody holds its lock. *)
  Lemma registered s p : nreach modulus s -> lock s = None ->
    (SL p s <-> In (EPollEnd p Pending) (hist s) /\ ~ In (EWake p) (hist s)).
  Proof.
    intros R LK. pose proof (inv_reach modulus modulus_pos _ R) as I. pose proof (life_reach _ R) as [ND L].
    destruct (L p) as [P|[P|[P|[P|[P|P]]]]]; try tauto.
    exfalso. destruct P as [[t' M] _]. assert (holds_lock (threads s t')) as HL'.
    { clear -M. destruct (threads s t') as [| | | | | | | | | |q r|]; cbn in *; auto. }
    apply (iv_lock _ _ I) in HL'. congruence.
  Qed.

  Lemma ready_leaves_nothing s p : nreach modulus s -> In (EPollEnd p Ready) (hist s) ->
    ~ SL p s /\ ~ In (EWake p) (hist s) /\ ~ In (EPollEnd p Pending) (hist s).
  Proof. intros R E. destruct (life_reach _ R) as [ND L]. destruct (L p) as [P|[P|[P|[P|[P|P]]]]]; tauto. Qed.

  Lemma woken_gone s p : nreach modulus s -> In (EWake p) (hist s) -> ~ SL p s.
  Proof. intros R E. destruct (life_reach _ R) as [ND L]. destruct (L p) as [P|[P|[P|[P|[P|P]]]]]; tauto. Qed.

  (** A send that returns has woken every waker owed a wake when it returned. *)
  Lemma send_empties s n a b p : nreach modulus s -> hist s = a ++ ESendEnd n :: b ->
    In (EPollEnd p Pending) b -> In (EWake p) b /\ ~ SL p s.
  Proof.
    intros R E Q. destruct (reach_event s R _ _ _ E) as (t & s0 & s1 & R0 & E0 & ST & E1).
    assert (X : slab s0 = []).
    { inversion ST; subst; cbn in E1;
        try (apply (f_equal (@length _)) in E1; cbn in E1; lia); try discriminate E1; [assumption|].
      destruct (Nat.eqb _ _); cbn in E1; [apply (f_equal (@length _)) in E1; cbn in E1; lia|discriminate E1]. }
    assert (Y : In (EWake p) b).
    { destruct (life_reach _ R0) as [ND L]. assert (~ SL p s0) by (unfold SL; rewrite X; auto).
      rewrite <- E0 in Q |- *. destruct (L p) as [P|[P|[P|[P|[P|P]]]]]; tauto. }
    split; [exact Y|]. apply woken_gone; [exact R|]. rewrite E. apply in_or_app. right. now right.
  Qed.

  (** ** Wakers pile up *)
  Lemma poll_pending v w ws th np h sl t k :
    nreach modulus (NState v None sl th ws np h) -> th t = Idle -> w < length ws -> nth w ws 0 = v -> ~ In k (map fst sl) ->
    exists th', nreach modulus (NState v None ((k, np) :: sl) th' ws (np + 1)
                 (EPollEnd np Pending :: ERegister np :: EPollBegin np w :: h)) /\ th' t = Idle.
  Proof.
    intros R TH LW NV NK.
    eapply nr_step in R; [|eapply (st_poll _ t _ (w := w)); [exact TH|exact LW]].
    cbn [version lock slab threads waits next_pid hist] in R.
    eapply nr_step in R; [|eapply (st_poll_load1 _ t); cbn; apply upd_same].
    cbn [version lock slab threads waits next_pid hist] in R. rewrite NV, Nat.eqb_refl in R.
    eapply nr_step in R; [|eapply (st_poll_lock _ t); cbn; [apply upd_same|reflexivity]].
    cbn [version lock slab threads waits next_pid hist] in R.
    eapply nr_step in R; [|eapply (@st_poll_insert _ t _ _ _ k); cbn; [apply upd_same|exact NK]].
    cbn [version lock slab threads waits next_pid hist] in R.
    eapply nr_step in R; [|eapply (st_poll_load2 _ t); cbn; apply upd_same].
    cbn [version lock slab threads waits next_pid hist] in R. rewrite NV, Nat.eqb_refl in R.
    eapply nr_step in R; [|eapply (st_poll_unlock _ t); cbn; apply upd_same].
    cbn [version lock slab threads waits next_pid hist] in R.
    eexists. split; [exact R|]. apply upd_same.
  Qed.

  Lemma pile_up n : exists s, nreach modulus s /\ length (waits s) = 1 /\ length (slab s) = n /\
    (forall p w, In (EPollBegin p w) (hist s) -> w = 0) /\ lock s = None /\ threads s 0 = Idle.
  Proof.
    assert (X : forall n, exists sl th np h, nreach modulus (NState 0 None sl th [0] np h) /\ th 0 = Idle /\ length sl = n /\
              (forall p w, In (EPollBegin p w) h -> w = 0)).
    { induction n0 as [|m (sl & th & np & h & R & TH & LE & HB)].
      - pose proof (nr_init modulus) as R.
        eapply nr_step in R; [|eapply (st_wait _ 0); reflexivity]. cbn [ninit version lock slab threads waits next_pid hist] in R.
        eapply nr_step in R; [|eapply (st_wait_load _ 0); cbn; reflexivity].
        cbn [version lock slab threads waits next_pid hist length app] in R.
        do 4 eexists. split; [exact R|]. split; [apply upd_same|]. split; [reflexivity|]. intros p w [Q|[]]. discriminate.
      - destruct (poll_pending 0 0 [0] th np h sl 0 (fresh_key sl) R TH ltac:(cbn; lia) eq_refl (fresh_key_ok modulus modulus_pos sl)) as (th' & R' & TH').
        do 4 eexists. split; [exact R'|]. split; [exact TH'|]. split; [cbn; now rewrite LE|].
        intros p w [Q|[Q|[Q|Q]]]; try discriminate; [now injection Q|eauto]. }
    destruct (X n) as (sl & th & np & h & R & TH & LE & HB). eexists. split; [exact R|]. cbn. auto.
  Qed.
End Phase.
