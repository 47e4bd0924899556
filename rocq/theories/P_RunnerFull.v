(** * P_RunnerFull: property C91, the runner's futures over the whole of Notify. *)
From Coq Require Import Lia.
From Verif Require Import S_RunnerFull L_Runner P_Runner.

Local Arguments Nat.modulo : simpl never.

Section Notify.
  Context {T : Type} (modulus : nat).
  Implicit Types (x : @fshared T).

  Definition held (c : wpc) : bool := match c with W55 | W60 => false | _ => true end.
  Definition wok x (p : poll_id) (v : nat) (c : wpc) : Prop :=
    (f_lock x = Some ByPoll <-> held c = true) /\
    match c with
    | W63 k | W64 k => In (k, p) (f_slab x)
    | W67 => In p (map snd (f_slab x)) /\ (f_version x <> v -> 0 < f_sends x)
    | _ => True
    end.
  Definition asleep x (p : poll_id) (v : nat) : Prop :=
    In p (map snd (f_slab x)) /\ (f_version x <> v -> 0 < f_sends x \/ f_lock x = Some BySend).

  Lemma wstep_ok x p v c x' r : wok x p v c -> wstep p v x c x' r ->
    match r with
    | WGo c' => wok x' p v c'
    | WReady => f_lock x' <> Some ByPoll
    | WPending => f_lock x' = None /\ asleep x' p v
    | WPanic => False
    end.
  Proof.
    intros (L & I) St. destruct St; cbn in *; unfold wok, asleep; cbn.
    - intros E. apply L in E. discriminate.
    - tauto.
    - tauto.
    - split; [rewrite L; tauto|auto].
    - split; [rewrite L; tauto|auto].
    - split; [rewrite L; tauto|]. split; [now apply (in_map snd) in I|congruence].
    - split; [rewrite L; tauto|auto].
    - apply (in_map fst) in I. contradiction.
    - discriminate.
    - split; [reflexivity|]. split; [apply I|]. intros E. left. now apply I.
  Qed.

  Lemma wstep_sending x p v c x' r : wok x p v c -> wstep p v x c x' r -> sending x' = sending x.
  Proof.
    intros (L & _) St. destruct St; unfold sending; cbn; try reflexivity.
    - now rewrite H.
    - now rewrite (proj2 L eq_refl).
    - now rewrite (proj2 L eq_refl).
  Qed.

  Lemma loader_wok x e x' p v c : floader_step modulus x e x' -> wok x p v c -> wok x' p v c.
  Proof.
    intros St (L & I). destruct St; unfold wok in *; cbn in *; try (split; [exact L|exact I]).
    - split; [exact L|]. destruct c; auto. split; [apply I|]. lia.
    - split; [split; intros E; [discriminate|]; apply L in E; discriminate|].
      destruct c; auto; cbn in L; destruct L as (_ & L); specialize (L eq_refl); discriminate.
    - split; [exact L|]. destruct c; auto; cbn in L; destruct L as (_ & L); specialize (L eq_refl); discriminate.
    - split; [split; intros E; [discriminate|]; apply L in E; discriminate|].
      destruct c; auto; cbn in L; destruct L as (_ & L); specialize (L eq_refl); discriminate.
  Qed.

  Lemma loader_asleep x e x' p v : floader_step modulus x e x' -> asleep x p v -> asleep x' p v \/ e = Some (FWake p).
  Proof.
    intros St (I & W). destruct St; unfold asleep; cbn in *; auto.
    - left. split; [exact I|]. intros _. left. lia.
    - destruct (Nat.eq_dec p0 p) as [->|N]; [now right|]. left. split; [|auto].
      rewrite map_app in *. cbn in I. apply in_app_or in I. apply in_or_app. destruct I as [I|[I|I]]; auto. contradiction.
    - contradiction.
  Qed.

  Lemma loader_lock x e x' : floader_step modulus x e x' -> f_lock x <> Some ByPoll -> f_lock x' <> Some ByPoll.
  Proof. destruct 1; cbn; auto; discriminate. Qed.

  Lemma loader_log x e x' (h : list (@fevent T)) : floader_step modulus x e x' ->
    pending_poll (fnote e h) = pending_poll h /\ (forall p, In (FPoll p) h -> In (FPoll p) (fnote e h)) /\
    (forall p, woken_since p h -> woken_since p (fnote e h)).
  Proof.
    intros St. assert (K : forall e' p, woken_since p h -> woken_since p (e' :: h)).
    { intros e' p (h1 & h2 & -> & I). exists (e' :: h1), h2. split; [reflexivity|now right]. }
    destruct St; cbn; auto.
  Qed.

  Lemma woke_now p (h : list (@fevent T)) : In (FPoll p) h -> woken_since p (FWake p :: h).
  Proof. intros I. apply in_split in I. destruct I as (h1 & h2 & ->). exists (FWake p :: h1), h2. split; [reflexivity|now left]. Qed.

  Lemma loader_counts x e x' (h : list (@fevent T)) k : floader_step modulus x e x' ->
    sent h + sending x = k + sends (plain h) -> sent (fnote e h) + sending x' = k + sends (plain (fnote e h)).
  Proof. unfold sending. destruct 1; cbn; try destruct l; cbn; lia. Qed.

  Lemma loader_plain x e x' (h : list (@fevent T)) y : floader_step modulus x e x' -> same_shared x y ->
    exists y', same_shared x' y' /\
      ((y' = y /\ plain (fnote e h) = plain h) \/ exists e', loader_step modulus y e' y' /\ plain (fnote e h) = note e' (plain h)).
  Proof.
    intros St (H & T0 & V & D). destruct y as [yh yt yv yd yr yk yw]. cbn in *. subst.
    destruct St; cbn in *; unfold same_shared; cbn.
    - eexists. split; [|right; exists (Some (EAppend seg)); split; [apply ls_append; exact H|reflexivity]]. cbn; auto.
    - eexists. split; [|right; exists (Some EDone); split; [apply ls_done|reflexivity]]. cbn; auto.
    - eexists. split; [|right; exists (Some ESend); split; [apply ls_send|reflexivity]]. cbn; auto.
    - eexists. split; [|left; split; reflexivity]. auto.
    - eexists. split; [|left; split; reflexivity]. auto.
    - eexists. split; [|left; split; reflexivity]. auto.
  Qed.

  (** Keys are used once, and wakers leave the slab only by being woken or by the
      hand of their own poll. *)
  Lemma filter_keys key (l : list (nat * poll_id)) : NoDup (map fst l) -> NoDup (map fst (filter (fun e => negb (Nat.eqb (fst e) key)) l)).
  Proof.
    induction l as [|[k p] l IH]; cbn; intros N; [constructor|]. inversion N; subst. destruct (Nat.eqb k key); cbn; [auto|].
    constructor; [|auto]. intros I. apply H1. apply in_map_iff in I. destruct I as (e & E & I). apply filter_In in I.
    rewrite <- E. now apply in_map.
  Qed.
  Lemma loader_keys x e x' : floader_step modulus x e x' -> NoDup (map fst (f_slab x)) -> NoDup (map fst (f_slab x')).
  Proof.
    destruct 1; cbn; auto. rewrite !map_app. cbn. apply NoDup_remove_1.
  Qed.
  Lemma loader_slab x e x' k p : floader_step modulus x e x' -> In (k, p) (f_slab x) -> In (k, p) (f_slab x') \/ e = Some (FWake p).
  Proof.
    destruct 1; cbn; auto. intros I. apply in_app_or in I. rewrite in_app_iff. destruct I as [I|[I|I]]; auto.
    injection I as <- <-. auto.
  Qed.
  Lemma wstep_keys p v x c x' r : wstep p v x c x' r -> NoDup (map fst (f_slab x)) -> NoDup (map fst (f_slab x')).
  Proof. destruct 1; cbn; auto; [now constructor|apply filter_keys]. Qed.
  Lemma same_key (l : list (nat * poll_id)) k p p' : NoDup (map fst l) -> In (k, p) l -> In (k, p') l -> p = p'.
  Proof.
    induction l as [|[k0 p0] l IH]; cbn; intros N; [contradiction|]. inversion N; subst.
    intros [I|I] [J|J]; [congruence|injection I as -> ->; apply (in_map fst) in J; contradiction
      |injection J as -> ->; apply (in_map fst) in I; contradiction|auto].
  Qed.
  Lemma wstep_slab p v x c x' r k p' : NoDup (map fst (f_slab x)) -> wok x p v c -> wstep p v x c x' r ->
    In (k, p') (f_slab x) -> In (k, p') (f_slab x') \/ p' = p.
  Proof.
    intros N (_ & W) St I. destruct St; cbn in *; auto.
    destruct (Nat.eq_dec k key) as [-> |NE]; [right; exact (same_key _ _ _ _ N I W)|left].
    apply filter_In. split; [exact I|]. cbn. apply Nat.eqb_neq in NE. now rewrite NE.
  Qed.

  (** While the lock is held by a send, that send can go on to its end. *)
  Lemma send_ends x : f_lock x = Some BySend ->
    exists x', loaders modulus (S (length (f_slab x))) x x' /\ f_lock x' = None /\ f_version x' = f_version x.
  Proof.
    destruct x as [h t v d l sl k]. cbn. intros ->. induction sl as [|[key p] sl (x' & St & L & V)].
    - eexists. split; [econstructor 2; [apply fl_end|constructor]|auto].
    - exists x'. split; [|auto]. econstructor 2; [apply (fl_wake _ h t v d [] key p sl k)|exact St].
  Qed.

  (** A poll under way can go on, or waits for such a send. *)
  Lemma wait_moves x p v c : wok x p v c -> (exists x' r, wstep p v x c x' r) \/ (c = W60 /\ f_lock x = Some BySend).
  Proof.
    intros (L & I). destruct c.
    - destruct (Nat.eq_dec (f_version x) v); left; eexists; eexists; [now apply ws_same|now apply ws_differs].
    - destruct (f_lock x) as [[]|] eqn:E; [pose proof (proj1 L eq_refl); discriminate|auto|]. left. eexists. eexists. now apply ws_lock.
    - left. exists (with_slab x ((S (list_max (map fst (f_slab x))), p) :: f_slab x)). eexists. apply ws_insert.
      intros K. pose proof (proj1 (list_max_le (map fst (f_slab x)) _) (Nat.le_refl _)) as F.
      rewrite Forall_forall in F. apply F in K. lia.
    - destruct (Nat.eq_dec (f_version x) v); left; eexists; eexists; [now apply ws_same2|now apply ws_differs2].
    - left. eexists. eexists. apply ws_remove. now apply (in_map fst) in I.
    - left. eexists. eexists. apply ws_ready.
    - left. eexists. eexists. apply ws_pending.
  Qed.

  Lemma plain_start x y : same_shared x y -> plain (flog x) = start_history y.
  Proof. intros (_ & _ & _ & D). unfold flog, start_history. rewrite D. now destruct (f_done x). Qed.
  Lemma same_coarse x : same_shared x (coarse x).
  Proof. unfold same_shared. auto. Qed.
End Notify.

(** ** DefaultSegments *)
Section Segments.
  Context {T : Type} (modulus : nat).
  Variables (x0 : @fshared T) (b : gbuffer).
  Hypothesis unlocked : f_lock x0 <> Some ByPoll.


  (** The lock, the slab and the wakers. *)
  Definition fsinv (s : @fsstate T) : Prop :=
    sent (fs_log s) + sending (fs_sh s) = sending x0 + sends (plain (fs_log s)) /\
    (match fs_pc s with FSIdle => True | FSParked => fs_fut s <> None -> In (FPoll (fs_poll s)) (fs_log s)
     | _ => In (FPoll (fs_poll s)) (fs_log s) end) /\
    (forall p, pending_poll (fs_log s) = Some p -> p = fs_poll s /\ fs_pc s = FSParked /\ fs_fut s <> None) /\
    match fs_pc s with
    | FSFut c => match fs_fut s with
                 | Some v => wok (fs_sh s) (fs_poll s) v c
                 | None => c = W55 /\ f_lock (fs_sh s) <> Some ByPoll
                 end
    | FSParked => f_lock (fs_sh s) <> Some ByPoll /\
                  forall v, fs_fut s = Some v -> woken_since (fs_poll s) (fs_log s) \/ asleep (fs_sh s) (fs_poll s) v
    | FSWake => f_lock (fs_sh s) <> Some ByPoll /\ fs_fut s <> None
    | FSPanicked => True
    | _ => f_lock (fs_sh s) <> Some ByPoll
    end.

  Lemma fsstep_inv s s' : fsinv s -> fsstep modulus s s' -> fsinv s'.
  Proof.
    intros (C & L & PP & I) St. destruct St; cbn in *.
    - destruct (loader_log modulus _ _ _ h H) as (E & K1 & K2).
      split; [eapply loader_counts; eassumption|]. split; [destruct c; cbn; auto|].
      split; [cbn; rewrite E; exact PP|]. cbn.
      destruct c; try exact (loader_lock modulus _ _ _ H I); auto.
      + destruct I as (I1 & I2). split; [exact (loader_lock modulus _ _ _ H I1)|]. intros v ->.
        destruct (I2 v eq_refl) as [W|A]; [left; auto|]. destruct (loader_asleep modulus _ _ _ _ _ H A) as [A'| ->]; [now right|].
        left. apply woke_now, L. discriminate.
      + destruct f; [exact (loader_wok modulus _ _ _ _ _ _ H I)|]. split; [apply I|]. exact (loader_lock modulus _ _ _ H (proj2 I)).
      + destruct I as (I1 & I2). split; [exact (loader_lock modulus _ _ _ H I1)|exact I2].
    - split; [exact C|]. split; [intros N; now destruct N|]. split; [discriminate|]. cbn. split; [exact I|discriminate].
    - split; [exact C|]. split; [exact Logic.I|]. split; [discriminate|apply I].
    - split; [exact C|]. split; [now left|]. split; [discriminate|]. cbn. destruct I as (I1 & I2). destruct f; [|auto]. split; [|exact Logic.I].
      split; [contradiction|discriminate].
    - split; [exact C|]. split; [exact L|]. split; [|apply I]. intros p0 E. destruct (PP p0 E) as (_ & E' & _). discriminate.
    - pose proof (wstep_ok _ _ _ _ _ _ I H) as W.
      pose proof (wstep_sending _ _ _ _ _ _ I H) as E.
      split; [cbn; lia|]. split; [exact L|]. split; [|exact W]. intros p0 Q. destruct (PP p0 Q) as (_ & E' & _). discriminate.
    - pose proof (wstep_ok _ _ _ _ _ _ I H) as W.
      pose proof (wstep_sending _ _ _ _ _ _ I H) as E.
      split; [cbn; lia|]. split; [exact L|]. split; [|exact W]. intros p0 Q. destruct (PP p0 Q) as (_ & E' & _). discriminate.
    - pose proof (wstep_ok _ _ _ _ _ _ I H) as (W1 & W2).
      pose proof (wstep_sending _ _ _ _ _ _ I H) as E.
      split; [cbn; lia|]. split; [intros _; now right|]. split; [intros p0 Q; injection Q as <-; repeat split; discriminate|].
      cbn. split; [congruence|]. intros w Q. injection Q as <-. now right.
    - destruct (wstep_ok _ _ _ _ _ _ I H).
    - split; [exact C|]. split; [exact Logic.I|]. split; [discriminate|exact I].
    - split; [exact C|]. split; [exact L|]. split; [|exact I]. intros p0 Q. destruct (PP p0 Q) as (_ & E' & _). discriminate.
    - split; [exact C|]. split; [now right|]. split; [|exact I]. intros p0 Q. destruct (PP p0 Q) as (_ & E' & _). discriminate.
    - split; [exact C|]. split; [exact Logic.I|]. split; [discriminate|exact I].
    - split; [exact C|]. split; [now right|]. split; [|exact I]. intros p0 Q. destruct (PP p0 Q) as (_ & E' & _). discriminate.
    - split; [exact C|]. split; [exact Logic.I|]. split; [discriminate|exact I].
    - split; [exact C|]. split; [exact L|]. split; [|exact I]. intros p0 Q. destruct (PP p0 Q) as (_ & E' & _). discriminate.
    - split; [exact C|]. split; [exact L|]. split; [|split; [exact I|discriminate]]. intros p0 Q. destruct (PP p0 Q) as (_ & E' & _). discriminate.
    - destruct I as (I1 & I2). split; [exact C|]. split; [intros _; right; now right|].
      split; [intros p0 Q; injection Q as <-; auto|]. cbn. split; [exact I1|]. intros v _. left.
      destruct (woke_now _ _ L) as (h1 & h2 & E & I3). exists (FPending p :: h1), h2. rewrite E. split; [reflexivity|now right].
    - split; [exact C|]. split; [exact L|]. split; [|exact Logic.I]. intros p0 Q. destruct (PP p0 Q) as (_ & E' & _). discriminate.
    - split; [exact C|]. split; [exact L|]. split; [|exact Logic.I]. intros p0 Q. destruct (PP p0 Q) as (_ & E' & _). discriminate.
  Qed.

  Lemma fsreach_inv s : fsreach modulus x0 b s -> fsinv s.
  Proof.
    induction 1 as [|s s' R IH St]; [|exact (fsstep_inv _ _ IH St)].
    unfold fsinv. cbn. unfold flog. split; [destruct (f_done x0); cbn; lia|]. split; [exact I|].
    split; [destruct (f_done x0); discriminate|exact unlocked].
  Qed.

  Lemma fsstep_alike s s1 s' : fsinv s -> alike s s' -> fsstep modulus s s1 ->
    exists s1', alike s1 s1' /\ (s1' = s' \/ sstep modulus s' s1').
  Proof.
    intros (_ & _ & _ & W) (X & E1 & E2 & E3 & E4) St. destruct s' as [y i' f' c' h']. cbn in *. subst i' f' c' h'.
    pose proof X as (Hh & Ht & Hv & Hd).
    destruct St; cbn in *.
    - destruct (loader_plain modulus _ _ _ h y H X) as (y' & X' & [(-> & E)|(e' & L & E)]).
      + eexists. split; [|now left]. unfold alike. cbn. auto.
      + eexists. split; [|right; apply ss_loader; exact L]. unfold alike. cbn. auto.
    - eexists. split; [|right; apply ss_next]. unfold alike. cbn. auto.
    - eexists. split; [|right; apply ss_drop]. unfold alike. cbn. auto.
    - eexists. split; [|right; apply ss_poll]. unfold alike. cbn. auto.
    - eexists. split; [|right; apply ss_fut_none]. unfold alike. cbn. auto.
    - inversion H; subst; cbn.
      + eexists. split; [|right; apply ss_fut_same; exact Hv]. unfold alike. cbn. auto.
      + eexists. split; [|now left]. unfold alike. cbn. auto.
      + eexists. split; [|now left]. unfold alike. cbn. auto.
      + eexists. split; [|right; apply ss_fut2_ready; congruence]. unfold alike. cbn. auto.
      + eexists. split; [|right; apply ss_fut2_pending; exact Hv]. unfold alike. cbn. auto.
      + eexists. split; [|now left]. unfold alike. cbn. auto.
    - inversion H; subst; cbn.
      + eexists. split; [|right; apply ss_fut_ready; congruence]. unfold alike. cbn. auto.
      + eexists. split; [|now left]. unfold alike. cbn. auto.
    - inversion H; subst; cbn. eexists. split; [|now left]. unfold alike. cbn. auto.
    - destruct (wstep_ok _ _ _ _ _ _ W H).
    - eexists. split; [|right; apply ss_next1_some with (seg := seg) (i' := i'); now rewrite Hh]. unfold alike. cbn. auto.
    - eexists. split; [|right; apply ss_next1_none with (i' := i'); now rewrite Hh]. unfold alike. cbn. auto.
    - eexists. split; [|right; apply ss_wait]. unfold alike. cbn. rewrite Hv. auto.
    - eexists. split; [|right; apply ss_next2_some with (seg := seg) (i' := i'); now rewrite Hh]. unfold alike. cbn. auto.
    - eexists. split; [|right; apply ss_next2_none with (i' := i'); now rewrite Hh]. unfold alike. cbn. auto.
    - eexists. split; [|right; apply ss_done; congruence]. unfold alike. cbn. auto.
    - eexists. split; [|right; apply ss_not_done; congruence]. unfold alike. cbn. auto.
    - eexists. split; [|right; apply ss_set]. unfold alike. cbn. auto.
    - eexists. split; [|now left]. unfold alike. cbn. auto.
    - eexists. split; [|right; apply ss_panic1; now rewrite Hh]. unfold alike. cbn. auto.
    - eexists. split; [|right; apply ss_panic2; now rewrite Hh]. unfold alike. cbn. auto.
  Qed.

  (** Whatever happens over the whole of [Notify] happens in M_Runner too, with
      the same segments, the same answers and the same history: C56 to C58 and C79
      hold here. *)
  Theorem C91_segments_refine y s : same_shared x0 y -> fsreach modulus x0 b s ->
    exists s', sreach modulus y b s' /\ alike s s'.
  Proof.
    intros Y. induction 1 as [|s s1 R (s' & R' & A) St].
    - eexists. split; [constructor|]. unfold alike. cbn. rewrite (plain_start x0 y Y). auto 10.
    - destruct (fsstep_alike _ _ _ (fsreach_inv _ R) A St) as (s1' & A1 & [-> |S1]); [eauto|].
      exists s1'. split; [econstructor; eassumption|exact A1].
  Qed.

  Variable q : list (list T).
  Hypothesis version_small : f_version x0 < modulus.
  Hypothesis start : ahead (f_heap x0) (f_tail x0) b q.

  Let positive : 0 < modulus.
  Proof. lia. Qed.

  (** The waker that counts is that of the last poll.  When that poll went
      pending and a signal was sent since its [wait()], this very waker has been
      woken, or a send is still under way that will do so. *)
  Theorem C91_segments_woken s p : fsreach modulus x0 b s -> pending_poll (fs_log s) = Some p ->
    0 < sends_since_wait (plain (fs_log s)) < modulus ->
    woken_since p (fs_log s) \/
    (sent (fs_log s) < sending x0 + sends (plain (fs_log s)) /\ In p (map snd (f_slab (fs_sh s)))).
  Proof.
    intros R P (L1 & L2). destruct (fsreach_inv _ R) as (C & _ & PP & I).
    destruct (PP _ P) as (-> & Q & N). rewrite Q in I. destruct I as (_ & I).
    destruct (C91_segments_refine (coarse x0) _ (same_coarse x0) R) as (s' & R' & X & _ & F & K & H).
    pose proof (sreach_inv modulus _ q positive (coarse x0) b _ eq_refl version_small start R') as [[D V] _ _ J _].
    rewrite K, Q, F, H in J. cbn in J. destruct (fs_fut s) as [v|] eqn:FV; [|congruence].
    destruct J as (W & _). destruct (I v eq_refl) as [A|(A1 & A2)]; [now left|]. right. split; [|exact A1].
    assert (NE : f_version (fs_sh s) <> v).
    { destruct X as (_ & _ & X & _). rewrite <- X. rewrite H in V. unfold waited in W. intros E. unfold sends_since_wait in *.
      pose proof (sends_before_wait (plain (fs_log s))) as B.
      change (version (coarse x0)) with (f_version x0) in *.
      assert (E' : f_version x0 + sends (before_wait (plain (fs_log s))) = f_version x0 + sends (plain (fs_log s)))
        by (apply (mod_same modulus); try lia; congruence). lia. }
    destruct (A2 NE) as [A|A]; unfold sending in *; [|rewrite A in C]; lia.
  Qed.

  (** The slab is never asked to give back a waker that it does not have. *)
  Theorem C91_segments_no_panic s : fsreach modulus x0 b s -> fs_pc s <> FSPanicked.
  Proof.
    intros R. destruct (C91_segments_refine (coarse x0) _ (same_coarse x0) R) as (s' & R' & _ & _ & _ & K & _). intros E. rewrite E in K.
    exact (C56_no_panic modulus (coarse x0) b q version_small start s' R' K).
  Qed.

  (** No deadlock: the future can always go on by itself, except while it waits
      for the lock; then a send has it, which needs one step for each waker and
      one to give the lock back.  Between polls the future has no lock. *)
  Theorem C91_segments_moves s : fsreach modulus x0 b s ->
    (exists s', fsstep modulus s s' /\ fs_pc s' <> fs_pc s) \/
    (fs_pc s = FSFut W60 /\ f_lock (fs_sh s) = Some BySend /\
     exists x', loaders modulus (S (length (f_slab (fs_sh s)))) (fs_sh s) x' /\ f_lock x' = None).
  Proof.
    intros R. pose proof (C91_segments_no_panic _ R) as NP. destruct (fsreach_inv _ R) as (_ & _ & _ & I).
    destruct (C91_segments_refine (coarse x0) _ (same_coarse x0) R) as (s' & R' & X & Ei & _).
    pose proof (i_iter _ _ _ _ (sreach_inv modulus _ q positive (coarse x0) b _ eq_refl version_small start R')) as (ss & C & OK & _).
    pose proof (gnext_ok _ _ _ _ C OK) as N. rewrite (proj1 X), Ei in N. clear R' R.
    destruct s as [x i f c p h]. cbn in *.
    destruct c.
    - left. eexists. split; [apply fss_next|discriminate].
    - left. eexists. split; [apply fss_poll|discriminate].
    - destruct f as [v|].
      + destruct (wait_moves _ _ _ _ I) as [(x' & r & W)|(-> & L)].
        * left. destruct r.
          -- eexists. split; [apply fss_fut; exact W|]. cbn. inversion W; subst; discriminate.
          -- eexists. split; [eapply fss_fut_ready; exact W|discriminate].
          -- eexists. split; [eapply fss_fut_pending; exact W|discriminate].
          -- destruct (wstep_ok _ _ _ _ _ _ I W).
        * right. repeat split; auto. destruct (send_ends modulus _ L) as (x' & A & B & _). eauto.
      + destruct I as (-> & _). left. eexists. split; [apply fss_fut_none|discriminate].
    - left. destruct ss; [eexists; split; [eapply fss_next1_none; exact N|discriminate]|].
      destruct N as (m & N & _). eexists. split; [eapply fss_next1_some; exact N|discriminate].
    - left. eexists. split; [apply fss_wait|discriminate].
    - left. destruct ss; [eexists; split; [eapply fss_next2_none; exact N|discriminate]|].
      destruct N as (m & N & _). eexists. split; [eapply fss_next2_some; exact N|discriminate].
    - left. destruct (f_done x) eqn:D; eexists; (split; [first [now apply fss_done|now apply fss_not_done]|discriminate]).
    - left. eexists. split; [apply fss_set|discriminate].
    - left. eexists. split; [apply fss_wake|discriminate].
    - congruence.
  Qed.

  Theorem C91_segments_unlocked s : fsreach modulus x0 b s -> (forall c, fs_pc s <> FSFut c) -> f_lock (fs_sh s) <> Some ByPoll.
  Proof.
    intros R N. pose proof (C91_segments_no_panic _ R) as NP. destruct (fsreach_inv _ R) as (_ & _ & _ & I).
    destruct (fs_pc s); try exact I; try apply I; [now destruct (N c)|congruence].
  Qed.

  (** Nobody's waker is lost: one that is in the slab stays there until it is
      woken, or until the poll that put it there takes it back. *)
  Theorem C91_segments_kept s s' k p : NoDup (map fst (f_slab x0)) -> fsreach modulus x0 b s -> fsstep modulus s s' ->
    In (k, p) (f_slab (fs_sh s)) ->
    In (k, p) (f_slab (fs_sh s')) \/ fs_log s' = FWake p :: fs_log s \/ p = fs_poll s.
  Proof.
    intros N R St I.
    assert (K : NoDup (map fst (f_slab (fs_sh s)))).
    { clear St I. induction R as [|s s1 R IH St]; [exact N|].
      destruct St; cbn in *; auto; try exact (wstep_keys _ _ _ _ _ _ H IH). exact (loader_keys _ _ _ _ H IH). }
    destruct (fsreach_inv _ R) as (_ & _ & _ & W). destruct St; cbn in *; auto.
    - destruct (loader_slab _ _ _ _ _ _ H I) as [J| ->]; auto.
    - destruct (wstep_slab _ _ _ _ _ _ _ _ K W H I); auto.
    - destruct (wstep_slab _ _ _ _ _ _ _ _ K W H I); auto.
    - destruct (wstep_slab _ _ _ _ _ _ _ _ K W H I); auto.
    - destruct (wstep_slab _ _ _ _ _ _ _ _ K W H I); auto.
  Qed.
End Segments.

(** ** DefaultSequenceAdvance *)
Section Advance.
  Context {T : Type} (modulus : nat).
  Variables (x0 : @fshared T) (b : gbuffer) (n : nat).
  Hypothesis unlocked : f_lock x0 <> Some ByPoll.

  Definition fainv (s : @fastate T) : Prop :=
    sent (fa_log s) + sending (fa_sh s) = sending x0 + sends (plain (fa_log s)) /\
    (match fa_pc s with FAParked => fa_fut s <> None -> In (FPoll (fa_poll s)) (fa_log s)
     | _ => In (FPoll (fa_poll s)) (fa_log s) end) /\
    (forall p, pending_poll (fa_log s) = Some p -> p = fa_poll s /\ fa_pc s = FAParked /\ fa_fut s <> None) /\
    match fa_pc s with
    | FAFut c => match fa_fut s with
                 | Some v => wok (fa_sh s) (fa_poll s) v c
                 | None => c = W55 /\ f_lock (fa_sh s) <> Some ByPoll
                 end
    | FAParked => f_lock (fa_sh s) <> Some ByPoll /\
                  forall v, fa_fut s = Some v -> woken_since (fa_poll s) (fa_log s) \/ asleep (fa_sh s) (fa_poll s) v
    | FALoop _ | FACheck _ | FAWake => f_lock (fa_sh s) <> Some ByPoll /\ fa_fut s <> None
    | FAPanicked => True
    | _ => f_lock (fa_sh s) <> Some ByPoll
    end.

  Lemma fastep_inv s s' : fainv s -> fastep modulus s s' -> fainv s'.
  Proof.
    intros (C & L & PP & I) St. destruct St; cbn in *.
    - destruct (loader_log modulus _ _ _ h H) as (E & K1 & K2).
      split; [eapply loader_counts; eassumption|]. split; [destruct c; cbn; auto|].
      split; [cbn; rewrite E; exact PP|]. cbn.
      destruct c; try exact (loader_lock modulus _ _ _ H I); auto;
        try (split; [exact (loader_lock modulus _ _ _ H (proj1 I))|exact (proj2 I)]).
      + destruct I as (I1 & I2). split; [exact (loader_lock modulus _ _ _ H I1)|]. intros v ->.
        destruct (I2 v eq_refl) as [W|A]; [left; auto|]. destruct (loader_asleep modulus _ _ _ _ _ H A) as [A'| ->]; [now right|].
        left. apply woke_now, L. discriminate.
      + destruct f; [exact (loader_wok modulus _ _ _ _ _ _ H I)|]. split; [apply I|]. exact (loader_lock modulus _ _ _ H (proj2 I)).
    - split; [exact C|]. split; [now left|]. split; [discriminate|]. cbn. destruct I as (I1 & I2). destruct f; [|auto]. split; [|exact Logic.I].
      split; [contradiction|discriminate].
    - split; [exact C|]. split; [now left|]. split; [discriminate|exact Logic.I].
    - split; [exact C|]. split; [exact L|]. split; [|apply I]. intros p0 E. destruct (PP p0 E) as (_ & E' & _). discriminate.
    - pose proof (wstep_ok _ _ _ _ _ _ I H) as W.
      pose proof (wstep_sending _ _ _ _ _ _ I H) as E.
      split; [cbn; lia|]. split; [exact L|]. split; [|exact W]. intros p0 Q. destruct (PP p0 Q) as (_ & E' & _). discriminate.
    - pose proof (wstep_ok _ _ _ _ _ _ I H) as W.
      pose proof (wstep_sending _ _ _ _ _ _ I H) as E.
      split; [cbn; lia|]. split; [exact L|]. split; [|exact W]. intros p0 Q. destruct (PP p0 Q) as (_ & E' & _). discriminate.
    - pose proof (wstep_ok _ _ _ _ _ _ I H) as (W1 & W2).
      pose proof (wstep_sending _ _ _ _ _ _ I H) as E.
      split; [cbn; lia|]. split; [intros _; now right|]. split; [intros p0 Q; injection Q as <-; repeat split; discriminate|].
      cbn. split; [congruence|]. intros w Q. injection Q as <-. now right.
    - destruct (wstep_ok _ _ _ _ _ _ I H).
    - split; [exact C|]. split; [now right|]. split; [|split; [exact I|discriminate]]. intros p0 Q. destruct (PP p0 Q) as (_ & E' & _). discriminate.
    - split; [exact C|]. split; [exact L|]. split; [|exact I]. intros p0 Q. destruct (PP p0 Q) as (_ & E' & _). discriminate.
    - split; [exact C|]. split; [now right|]. split; [|exact I]. intros p0 Q. destruct (PP p0 Q) as (_ & E' & _). discriminate.
    - split; [exact C|]. split; [exact L|]. split; [|exact Logic.I]. intros p0 Q. destruct (PP p0 Q) as (_ & E' & _). discriminate.
    - split; [exact C|]. split; [exact L|]. split; [|apply I]. intros p0 Q. destruct (PP p0 Q) as (_ & E' & _). discriminate.
    - split; [exact C|]. split; [exact L|]. split; [|apply I]. intros p0 Q. destruct (PP p0 Q) as (_ & E' & _). discriminate.
    - split; [exact C|]. split; [exact L|]. split; [|exact I]. intros p0 Q. destruct (PP p0 Q) as (_ & E' & _). discriminate.
    - destruct I as (I1 & I2). split; [exact C|]. split; [intros _; right; now right|].
      split; [intros p0 Q; injection Q as <-; auto|]. cbn. split; [exact I1|]. intros v _. left.
      destruct (woke_now _ _ L) as (h1 & h2 & E & I3). exists (FPending p :: h1), h2. rewrite E. split; [reflexivity|now right].
  Qed.

  Lemma fareach_inv s : fareach modulus x0 b n s -> fainv s.
  Proof.
    induction 1 as [|s s' R IH St]; [|exact (fastep_inv _ _ IH St)].
    unfold fainv. cbn. unfold flog. split; [destruct (f_done x0); cbn; lia|]. split; [intros N; now destruct N|].
    split; [destruct (f_done x0); discriminate|]. split; [exact unlocked|discriminate].
  Qed.

  Lemma fastep_alike s s1 s' : fainv s -> alike_a s s' -> fastep modulus s s1 ->
    exists s1', alike_a s1 s1' /\ (s1' = s' \/ astep modulus s' s1').
  Proof.
    intros (_ & _ & _ & W) (X & E0 & E1 & E2 & E3 & E4) St. destruct s' as [y b' n' f' c' h']. cbn in *. subst b' n' f' c' h'.
    pose proof X as (Hh & Ht & Hv & Hd).
    destruct St; cbn in *.
    - destruct (loader_plain modulus _ _ _ h y H X) as (y' & X' & [(-> & E)|(e' & L & E)]).
      + eexists. split; [|now left]. unfold alike_a. cbn. auto 8.
      + eexists. split; [|right; apply as_loader; exact L]. unfold alike_a. cbn. auto 8.
    - eexists. split; [|right; apply as_poll]. unfold alike_a. cbn. auto 8.
    - eexists. split; [|right; apply as_poll_again]. unfold alike_a. cbn. auto 8.
    - eexists. split; [|right; apply as_fut_none]. unfold alike_a. cbn. auto 8.
    - inversion H; subst; cbn.
      + eexists. split; [|right; apply as_fut_same; exact Hv]. unfold alike_a. cbn. auto 8.
      + eexists. split; [|now left]. unfold alike_a. cbn. auto 8.
      + eexists. split; [|now left]. unfold alike_a. cbn. auto 8.
      + eexists. split; [|right; apply as_fut2_ready; congruence]. unfold alike_a. cbn. auto 8.
      + eexists. split; [|right; apply as_fut2_pending; exact Hv]. unfold alike_a. cbn. auto 8.
      + eexists. split; [|now left]. unfold alike_a. cbn. auto 8.
    - inversion H; subst; cbn.
      + eexists. split; [|right; apply as_fut_ready; congruence]. unfold alike_a. cbn. auto 8.
      + eexists. split; [|now left]. unfold alike_a. cbn. auto 8.
    - inversion H; subst; cbn. eexists. split; [|now left]. unfold alike_a. cbn. auto 8.
    - destruct (wstep_ok _ _ _ _ _ _ W H).
    - eexists. split; [|right; apply as_wait]. unfold alike_a. cbn. rewrite Hv. auto 8.
    - eexists. split; [|right; apply as_turn; rewrite Hh; exact H]. unfold alike_a. cbn. auto 8.
    - eexists. split; [|right; apply as_last; rewrite Hh; exact H]. unfold alike_a. cbn. auto 8.
    - eexists. split; [|right; apply as_loop_panic; now rewrite Hh]. unfold alike_a. cbn. auto 8.
    - eexists. split; [|right; apply as_all; exact H]. unfold alike_a. cbn. auto 8.
    - eexists. split; [|right; apply as_done; [exact H|congruence]]. unfold alike_a. cbn. auto 8.
    - eexists. split; [|right; apply as_not_done; [exact H|congruence]]. unfold alike_a. cbn. auto 8.
    - eexists. split; [|right; apply as_wake]. unfold alike_a. cbn. auto 8.
  Qed.

  Theorem C91_advance_refine y s : same_shared x0 y -> fareach modulus x0 b n s ->
    exists s', areach modulus y b n s' /\ alike_a s s'.
  Proof.
    intros Y. induction 1 as [|s s1 R (s' & R' & A) St].
    - eexists. split; [constructor|]. unfold alike_a. cbn. rewrite (plain_start x0 y Y). auto 12.
    - destruct (fastep_alike _ _ _ (fareach_inv _ R) A St) as (s1' & A1 & [-> |S1]); [eauto|].
      exists s1'. split; [econstructor; eassumption|exact A1].
  Qed.

  Variable q : list (list T).
  Hypothesis version_small : f_version x0 < modulus.
  Hypothesis start : ahead (f_heap x0) (f_tail x0) b q.

  Let positive : 0 < modulus.
  Proof. lia. Qed.

  Theorem C91_advance_woken s p : fareach modulus x0 b n s -> pending_poll (fa_log s) = Some p ->
    0 < sends_since_wait (plain (fa_log s)) < modulus ->
    woken_since p (fa_log s) \/
    (sent (fa_log s) < sending x0 + sends (plain (fa_log s)) /\ In p (map snd (f_slab (fa_sh s)))).
  Proof.
    intros R P (L1 & L2). destruct (fareach_inv _ R) as (C & _ & PP & I).
    destruct (PP _ P) as (-> & Q & N). rewrite Q in I. destruct I as (_ & I).
    destruct (C91_advance_refine (coarse x0) _ (same_coarse x0) R) as (s' & R' & X & _ & _ & F & K & H).
    pose proof (areach_inv modulus _ q n positive (coarse x0) b _ eq_refl version_small start R') as [[D V] _ _ J _].
    rewrite K, Q, F, H in J. cbn in J. destruct (fa_fut s) as [v|] eqn:FV; [|congruence].
    destruct (I v eq_refl) as [A|(A1 & A2)]; [now left|]. right. split; [|exact A1].
    assert (NE : f_version (fa_sh s) <> v).
    { destruct X as (_ & _ & X & _). rewrite <- X. rewrite H in V. unfold waited in J. intros E. unfold sends_since_wait in *.
      pose proof (sends_before_wait (plain (fa_log s))) as B.
      change (version (coarse x0)) with (f_version x0) in *.
      assert (E' : f_version x0 + sends (before_wait (plain (fa_log s))) = f_version x0 + sends (plain (fa_log s)))
        by (apply (mod_same modulus); try lia; congruence). lia. }
    destruct (A2 NE) as [A|A]; unfold sending in *; [|rewrite A in C]; lia.
  Qed.

  (** It panics only when it is polled after it was ready. *)
  Theorem C91_advance_no_panic s s' : fareach modulus x0 b n s -> fastep modulus s s' ->
    fa_pc s <> FAReady -> fa_pc s <> FAPanicked -> fa_pc s' <> FAPanicked.
  Proof.
    intros R St NR NP E. destruct (C91_advance_refine (coarse x0) _ (same_coarse x0) R) as (a & R' & X & _ & _ & _ & K & _).
    pose proof (ai_pc _ _ _ _ _ (areach_inv modulus _ q n positive (coarse x0) b _ eq_refl version_small start R')) as J.
    destruct (fareach_inv _ R) as (_ & _ & _ & I). rewrite K in J.
    destruct St; cbn in *; try discriminate; try congruence.
    - destruct (wstep_ok _ _ _ _ _ _ I H).
    - destruct J as (k & J & _). destruct X as (X & _). cbn in X. rewrite <- X in H.
      exact (turn_never_panics _ _ _ _ _ J H).
  Qed.

  Theorem C91_advance_moves s : fareach modulus x0 b n s -> fa_pc s <> FAReady -> fa_pc s <> FAPanicked ->
    (exists s', fastep modulus s s' /\ fa_pc s' <> fa_pc s) \/
    (fa_pc s = FAFut W60 /\ f_lock (fa_sh s) = Some BySend /\
     exists x', loaders modulus (S (length (f_slab (fa_sh s)))) (fa_sh s) x' /\ f_lock x' = None).
  Proof.
    intros R NR NP. destruct (fareach_inv _ R) as (_ & _ & _ & I).
    destruct (C91_advance_refine (coarse x0) _ (same_coarse x0) R) as (a & R' & X & _ & _ & _ & K & _).
    pose proof (ai_pc _ _ _ _ _ (areach_inv modulus _ q n positive (coarse x0) b _ eq_refl version_small start R')) as J.
    rewrite K in J. clear R R'. destruct s as [x bf rem f c p h]. cbn in *.
    destruct c; try congruence.
    - left. eexists. split; [apply fas_poll|discriminate].
    - destruct f as [v|].
      + destruct (wait_moves _ _ _ _ I) as [(x' & r & W)|(-> & L)].
        * left. destruct r.
          -- eexists. split; [apply fas_fut; exact W|]. cbn. inversion W; subst; discriminate.
          -- eexists. split; [eapply fas_fut_ready; exact W|discriminate].
          -- eexists. split; [eapply fas_fut_pending; exact W|discriminate].
          -- destruct (wstep_ok _ _ _ _ _ _ I W).
        * right. repeat split; auto. destruct (send_ends modulus _ L) as (x' & A & B & _). eauto.
      + destruct I as (-> & _). left. eexists. split; [apply fas_fut_none|discriminate].
    - left. eexists. split; [apply fas_wait|discriminate].
    - left. destruct J as (k & (ss & C & OK & _) & _). destruct (adv_turn_ok _ _ _ _ C OK) as ([a'|a'] & E & P); rewrite (proj1 X) in E.
      + eexists. split; [apply fas_turn; exact E|]. cbn. intros Y. injection Y as ->.
        destruct P as (s1 & ss1 & -> & C' & _). destruct (chain_unique _ _ _ _ _ _ C C') as (Y & _).
        apply (f_equal (@length _)) in Y. cbn in Y. lia.
      + eexists. split; [apply fas_last; exact E|discriminate].
    - left. destruct (Nat.eq_dec remain rem) as [E|E]; [eexists; split; [now apply fas_all|discriminate]|].
      destruct (f_done x) eqn:D; eexists; (split; [first [now apply fas_done|now apply fas_not_done]|discriminate]).
    - left. eexists. split; [apply fas_wake|discriminate].
  Qed.

  Theorem C91_advance_kept s s' k p : NoDup (map fst (f_slab x0)) -> fareach modulus x0 b n s -> fastep modulus s s' ->
    In (k, p) (f_slab (fa_sh s)) ->
    In (k, p) (f_slab (fa_sh s')) \/ fa_log s' = FWake p :: fa_log s \/ p = fa_poll s.
  Proof.
    intros N R St I.
    assert (K : NoDup (map fst (f_slab (fa_sh s)))).
    { clear St I. induction R as [|s s1 R IH St]; [exact N|].
      destruct St; cbn in *; auto; try exact (wstep_keys _ _ _ _ _ _ H IH). exact (loader_keys _ _ _ _ H IH). }
    destruct (fareach_inv _ R) as (_ & _ & _ & W). destruct St; cbn in *; auto.
    - destruct (loader_slab _ _ _ _ _ _ H I) as [J| ->]; auto.
    - destruct (wstep_slab _ _ _ _ _ _ _ _ K W H I); auto.
    - destruct (wstep_slab _ _ _ _ _ _ _ _ K W H I); auto.
    - destruct (wstep_slab _ _ _ _ _ _ _ _ K W H I); auto.
    - destruct (wstep_slab _ _ _ _ _ _ _ _ K W H I); auto.
  Qed.
End Advance.

(** ** Cases *)
Local Ltac tidy R := cbn [fs_sh fs_iter fs_fut fs_pc fs_poll fs_log fsinit fnote f_heap f_tail f_version f_done f_lock f_slab f_sends
  with_lock with_slab flog numbered gsegments app map snd fst list_max Nat.max] in R.

(** The future is polled twice before anything happens: the first poll asks to be
    polled again, the second leaves its waker.  The signal that follows wakes the
    waker of the second. *)
Example C91_case_segments :
  exists s, fsreach 16 (FShared [None] 0 0 false None [] 0) buffer_new s /\ pending_poll (fs_log s) = Some 2 /\
    sends_since_wait (plain (fs_log s)) = 1 /\ sent (fs_log s) = 1 /\ woken_since 2 (fs_log s) /\
    appended (plain (fs_log s)) = [[7]] /\ f_slab (fs_sh s) = [].
Proof.
  eexists. split; [|split; [|split; [|split; [|split]]]].
  - pose proof (fsr_init (T := nat) 16 (FShared (@cons (option (list nat * nat)) None nil) 0 0 false None [] 0) buffer_new) as R. tidy R.
    eapply fsr_step in R; [|apply fss_next]. tidy R.
    eapply fsr_step in R; [|apply fss_poll]. tidy R.
    eapply fsr_step in R; [|apply fss_fut_none]. tidy R.
    eapply fsr_step in R; [|eapply fss_next1_none; reflexivity]. tidy R.
    eapply fsr_step in R; [|apply fss_wait]. tidy R.
    eapply fsr_step in R; [|eapply fss_next2_none; reflexivity]. tidy R.
    eapply fsr_step in R; [|apply fss_not_done; reflexivity]. tidy R.
    eapply fsr_step in R; [|apply fss_set]. tidy R.
    eapply fsr_step in R; [|apply fss_wake]. tidy R.
    eapply fsr_step in R; [|apply fss_poll]. tidy R.
    eapply fsr_step in R; [|apply fss_fut; apply ws_same; reflexivity]. tidy R.
    eapply fsr_step in R; [|apply fss_fut; apply ws_lock; reflexivity]. tidy R.
    eapply fsr_step in R; [|apply fss_fut; apply (ws_insert _ _ _ 5); cbn; tauto]. tidy R.
    eapply fsr_step in R; [|apply fss_fut; apply ws_same2; reflexivity]. tidy R.
    eapply fsr_step in R; [|eapply fss_fut_pending; apply ws_pending]. tidy R.
    eapply fsr_step in R; [|apply fss_loader; apply fl_append with (seg := [7]); reflexivity]. tidy R.
    eapply fsr_step in R; [|apply fss_loader; apply fl_add]. tidy R.
    eapply fsr_step in R; [|apply fss_loader; apply fl_lock]. tidy R.
    eapply fsr_step in R; [|apply fss_loader; apply (fl_wake _ _ _ _ _ [] 5 2 [])]. tidy R.
    eapply fsr_step in R; [|apply fss_loader; apply fl_end]. tidy R. exact R.
  - reflexivity.
  - reflexivity.
  - reflexivity.
  - eexists [_; _; _; _; _], _. split; [reflexivity|]. cbn. auto.
  - split; reflexivity.
Qed.

Local Ltac tidy_a R := cbn [fa_sh fa_buf fa_remain fa_fut fa_pc fa_poll fa_log fainit fnote f_heap f_tail f_version f_done f_lock f_slab f_sends
  with_lock with_slab flog numbered app map snd fst list_max Nat.max] in R.

(** [advance(1)] on an empty buffer goes pending twice; while a send is on its way
    to the lock, its waker is still there. *)
Example C91_case_advance :
  exists s, fareach 16 (FShared (@cons (option (list nat * nat)) None nil) 0 0 false None [(0, 3)] 0) buffer_new 1 s /\
    pending_poll (fa_log s) = Some 5 /\ sends_since_wait (plain (fa_log s)) = 1 /\ sent (fa_log s) = 0 /\
    f_slab (fa_sh s) = [(1, 5); (0, 3)].
Proof.
  eexists. split; [|split; [|split; [|split]]].
  - pose proof (far_init (T := nat) 16 (FShared (@cons (option (list nat * nat)) None nil) 0 0 false None [(0, 3)] 0) buffer_new 1) as R. tidy_a R.
    eapply far_step in R; [|apply fas_poll]. tidy_a R.
    eapply far_step in R; [|apply fas_fut_none]. tidy_a R.
    eapply far_step in R; [|apply fas_wait]. tidy_a R.
    eapply far_step in R; [|eapply fas_last; reflexivity]. tidy_a R.
    eapply far_step in R; [|apply fas_not_done; [discriminate|reflexivity]]. tidy_a R.
    eapply far_step in R; [|apply fas_wake]. tidy_a R.
    eapply far_step in R; [|apply fas_poll]. tidy_a R.
    eapply far_step in R; [|apply fas_fut; apply ws_same; reflexivity]. tidy_a R.
    eapply far_step in R; [|apply fas_fut; apply ws_lock; reflexivity]. tidy_a R.
    eapply far_step in R; [|apply fas_fut; apply (ws_insert _ _ _ 1); cbn; intros [E|[]]; discriminate]. tidy_a R.
    eapply far_step in R; [|apply fas_fut; apply ws_same2; reflexivity]. tidy_a R.
    eapply far_step in R; [|eapply fas_fut_pending; apply ws_pending]. tidy_a R.
    eapply far_step in R; [|apply fas_loader; apply fl_add]. tidy_a R. exact R.
  - reflexivity.
  - reflexivity.
  - reflexivity.
  - reflexivity.
Qed.

Print Assumptions C91_segments_refine.
Print Assumptions C91_segments_woken.
Print Assumptions C91_segments_no_panic.
Print Assumptions C91_segments_moves.
Print Assumptions C91_segments_unlocked.
Print Assumptions C91_segments_kept.
Print Assumptions C91_advance_kept.
Print Assumptions C91_advance_refine.
Print Assumptions C91_advance_woken.
Print Assumptions C91_advance_no_panic.
Print Assumptions C91_advance_moves.
