(** * L_Notify: invariants of the Notify transition system. *)
From Coq Require Import Lia.
From Verif Require Import M_Notify S_Notify.

Lemma upd_same f t c : upd f t c t = c.
Proof. unfold upd. now rewrite Nat.eqb_refl. Qed.
Lemma upd_other f t c t' : t' <> t -> upd f t c t' = f t'.
Proof. intros. unfold upd. now rewrite (proj2 (Nat.eqb_neq t' t)). Qed.

Definition holds_lock (c : pc) : Prop :=
  match c with
  | SendDrain _ | PollInsert _ _ | PollLoad2 _ _ _ | PollRemove _ _ | PollUnlock _ _ => True
  | _ => False
  end.

Definition pid_of (c : pc) : option pid :=
  match c with
  | PollLoad1 p _ | PollLock p _ | PollInsert p _ | PollLoad2 p _ _ | PollRemove p _ | PollUnlock p _ => Some p
  | _ => None
  end.

Lemma incs_app a b : incs (a ++ b) = incs a + incs b.
Proof. unfold incs. now rewrite filter_app, app_length. Qed.

Lemma since_app w a b : ~ In (EWait w) a -> sends_since w (a ++ b) = incs a + sends_since w b.
Proof.
  induction a as [|e a IH]; cbn; auto. intros H.
  assert (~ In (EWait w) a) by tauto.
  destruct e; cbn; rewrite ?IH; auto.
  destruct (Nat.eqb_spec w0 w) as [->|]; [tauto|]. reflexivity.
Qed.

Lemma since_le w h : sends_since w h <= incs h.
Proof.
  induction h as [|e h IH]; cbn; auto.
  destruct e; cbn; unfold incs in *; cbn; try lia.
  destruct (Nat.eqb w0 w); cbn; lia.
Qed.

Section Inv.
  Variable modulus : nat.
  Hypothesis modulus_pos : 0 < modulus.

  Record inv (s : nstate) : Prop := {
    iv_version : version s = incs (hist s) mod modulus;
    iv_wait_in : forall w, In (EWait w) (hist s) <-> w < length (waits s);
    iv_wait_one : forall w h1 h2, hist s = h1 ++ EWait w :: h2 -> ~ In (EWait w) h1 /\ ~ In (EWait w) h2;
    iv_wait_ver : forall w, w < length (waits s) ->
        nth w (waits s) 0 = (incs (hist s) - sends_since w (hist s)) mod modulus;
    iv_lock : forall t, holds_lock (threads s t) <-> lock s = Some t;
    iv_pid_lt : forall t p, pid_of (threads s t) = Some p -> p < next_pid s;
    iv_pid_inj : forall t t' p, pid_of (threads s t) = Some p -> pid_of (threads s t') = Some p -> t = t';
    iv_pid_end : forall t p r, pid_of (threads s t) = Some p -> ~ In (EPollEnd p r) (hist s);
    iv_begin_lt : forall p w, In (EPollBegin p w) (hist s) -> p < next_pid s;
    iv_end_lt : forall p r, In (EPollEnd p r) (hist s) -> p < next_pid s;
    iv_begin_wait : forall p w h1 h2, hist s = h1 ++ EPollBegin p w :: h2 ->
        In (EWait w) h2 /\ (forall w', ~ In (EPollBegin p w') h1) /\ (forall w', ~ In (EPollBegin p w') h2);
    iv_keys : NoDup (map fst (slab s));
    iv_slab_reg : forall k p, In (k, p) (slab s) -> In (ERegister p) (hist s);
    iv_send : forall t n, threads s t = SendLock n \/ threads s t = SendDrain n -> n <= incs (hist s);
    iv_send_end : forall n, In (ESendEnd n) (hist s) -> n <= incs (hist s);
    iv_pc : forall t, match threads s t with
        | PollLoad1 p w | PollLock p w | PollInsert p w => In (EPollBegin p w) (hist s)
        | PollLoad2 p w k => In (EPollBegin p w) (hist s) /\ In (k, p) (slab s)
        | PollRemove p k =>
            In (k, p) (slab s) /\ exists w, In (EPollBegin p w) (hist s) /\ 1 <= sends_since w (hist s)
        | PollUnlock p Ready => exists w, In (EPollBegin p w) (hist s) /\ 1 <= sends_since w (hist s)
        | PollUnlock p Pending => exists w, In (EPollBegin p w) (hist s)
        | Panicked => False
        | _ => True
        end
  }.

  Lemma version_eq s w : inv s -> w < length (waits s) -> sends_since w (hist s) < modulus ->
    nth w (waits s) 0 = version s -> sends_since w (hist s) = 0.
  Proof.
    intros I Hw Hlt E. rewrite (iv_wait_ver _ I _ Hw), (iv_version _ I) in E.
    pose proof (since_le w (hist s)) as L.
    remember (incs (hist s)) as n. remember (sends_since w (hist s)) as d.
    destruct (Nat.eq_dec d 0) as [|N]; auto. exfalso.
    pose proof (Nat.div_mod (n - d) modulus ltac:(lia)) as D1.
    pose proof (Nat.div_mod n modulus ltac:(lia)) as D2.
    rewrite E in D1.
    assert (n - (n - d) = modulus * (n / modulus) - modulus * ((n - d) / modulus)) by lia.
    assert (M : modulus * (n / modulus) - modulus * ((n - d) / modulus) = modulus * (n / modulus - (n - d) / modulus))
      by (rewrite Nat.mul_sub_distr_l; reflexivity).
    assert (Z : d = modulus * (n / modulus - (n - d) / modulus)) by lia.
    destruct (n / modulus - (n - d) / modulus) as [|q]; [rewrite Nat.mul_0_r in Z; lia|].
    assert (modulus * 1 <= modulus * S q) by (apply Nat.mul_le_mono; lia). lia.
  Qed.

  Lemma version_neq s w : inv s -> w < length (waits s) ->
    nth w (waits s) 0 <> version s -> 1 <= sends_since w (hist s).
  Proof.
    intros I Hw N. rewrite (iv_wait_ver _ I _ Hw), (iv_version _ I) in N.
    destruct (sends_since w (hist s)); [|lia].
    exfalso. apply N. f_equal. lia.
  Qed.

  Lemma begin_wait s p w : inv s -> In (EPollBegin p w) (hist s) -> w < length (waits s).
  Proof.
    intros I H. apply in_split in H as (h1 & h2 & E).
    apply (iv_wait_in _ I). destruct (iv_begin_wait _ I _ _ _ _ E) as (W & _).
    rewrite E. apply in_or_app. right. right. exact W.
  Qed.

  Lemma since_cons w e h : e <> EWait w -> sends_since w h <= sends_since w (e :: h).
  Proof.
    intros N. cbn. destruct e; auto.
    destruct (Nat.eqb_spec w0 w) as [->|]; [tauto|auto].
  Qed.

  Lemma inv_init : inv ninit.
  Proof.
    split; cbn; try (intros; discriminate); try (intros; tauto); auto.
    - now rewrite Nat.mod_0_l by lia.
    - intros w. lia.
    - intros w [|? ?]; discriminate.
    - intros w; lia.
    - intros t. split; [tauto|discriminate].
    - intros p w [|? ?]; discriminate.
    - constructor.
    - intros t n [H|H]; discriminate.
  Qed.

  Ltac tcase t' t := destruct (Nat.eq_dec t' t) as [->|]; [rewrite ?upd_same in *|rewrite ?upd_other in * by assumption].

  (** Adding an event that is not the creation of a wait or a poll. *)
  Definition plain (e : nevent) : Prop := match e with EWait _ | EPollBegin _ _ => False | _ => True end.

  Lemma plain_wait_one s e : inv s -> plain e ->
    forall w h1 h2, e :: hist s = h1 ++ EWait w :: h2 -> ~ In (EWait w) h1 /\ ~ In (EWait w) h2.
  Proof.
    intros I P w [|x h1] h2 E; cbn in E; injection E as -> E; [cbn in P; tauto|].
    destruct (iv_wait_one _ I _ _ _ E) as (A & B). split; auto.
    intros [->|]; cbn in P; tauto.
  Qed.

  Lemma plain_begin s e : inv s -> plain e ->
    forall p w h1 h2, e :: hist s = h1 ++ EPollBegin p w :: h2 ->
        In (EWait w) h2 /\ (forall w', ~ In (EPollBegin p w') h1) /\ (forall w', ~ In (EPollBegin p w') h2).
  Proof.
    intros I P p w [|x h1] h2 E; cbn in E; injection E as -> E; [cbn in P; tauto|].
    destruct (iv_begin_wait _ I _ _ _ _ E) as (A & B & C). split; [auto|split; [|auto]].
    intros w' [->|H]; cbn in P; [tauto|]. now apply (B w').
  Qed.

  (** The part of the invariant that speaks of the history only. *)
  Record hinv (v : nat) (ws : list nat) (np : nat) (h : list nevent) : Prop := {
    hv_version : v = incs h mod modulus;
    hv_wait_in : forall w, In (EWait w) h <-> w < length ws;
    hv_wait_one : forall w h1 h2, h = h1 ++ EWait w :: h2 -> ~ In (EWait w) h1 /\ ~ In (EWait w) h2;
    hv_wait_ver : forall w, w < length ws -> nth w ws 0 = (incs h - sends_since w h) mod modulus;
    hv_begin_lt : forall p w, In (EPollBegin p w) h -> p < np;
    hv_end_lt : forall p r, In (EPollEnd p r) h -> p < np;
    hv_begin_wait : forall p w h1 h2, h = h1 ++ EPollBegin p w :: h2 ->
        In (EWait w) h2 /\ (forall w', ~ In (EPollBegin p w') h1) /\ (forall w', ~ In (EPollBegin p w') h2);
    hv_send_end : forall n, In (ESendEnd n) h -> n <= incs h
  }.

  Lemma inv_hinv s : inv s -> hinv (version s) (waits s) (next_pid s) (hist s).
  Proof. intros I. destruct I. split; auto. Qed.

  Lemma hinv_quiet v ws np h e : hinv v ws np h ->
    match e with
    | ESendBegin _ | ERegister _ | EWake _ => True
    | EPollEnd p _ => p < np
    | ESendEnd n => n <= incs h
    | _ => False
    end -> hinv v ws np (e :: h).
  Proof.
    intros H He. destruct H as [A B C D E F G K].
    assert (P : plain e) by (destruct e; cbn in *; tauto).
    assert (NI : incs (e :: h) = incs h) by (destruct e; cbn in *; tauto).
    assert (NS : forall w, sends_since w (e :: h) = sends_since w h) by (intros w; destruct e; cbn in *; tauto).
    split.
    - now rewrite NI.
    - intros w. rewrite <- B. cbn. split; [intros [->|]; cbn in P; tauto|auto].
    - intros w [|x h1] h2 Q; cbn in Q; injection Q as -> Q; [cbn in P; tauto|].
      destruct (C _ _ _ Q) as (Q1 & Q2). split; auto.
      intros [->|]; cbn in P; tauto.
    - intros w Hw. rewrite NI, NS. auto.
    - intros p w [->|Q]; [cbn in P; tauto|eauto].
    - intros p r [->|Q]; [exact He|eauto].
    - intros p w [|x h1] h2 Q; cbn in Q; injection Q as -> Q; [cbn in P; tauto|].
      destruct (G _ _ _ _ Q) as (Q1 & Q2 & Q3). split; [auto|split; [|auto]].
      intros w' [->|R]; cbn in P; [tauto|]. now apply (Q2 w').
    - intros n [->|Q]; rewrite NI; [exact He|auto].
  Qed.

  Lemma hinv_inc v ws np h : hinv v ws np h -> hinv ((v + 1) mod modulus) ws np (EInc :: h).
  Proof.
    intros H. destruct H as [A B C D E F G K].
    assert (NI : incs (EInc :: h) = S (incs h)) by reflexivity.
    split.
    - rewrite NI, A, Nat.add_mod_idemp_l by lia. f_equal. lia.
    - intros w. rewrite <- B. cbn. split; [intros [Q|]; [discriminate|auto]|auto].
    - intros w [|x h1] h2 Q; cbn in Q; [discriminate|]; injection Q as <- Q.
      destruct (C _ _ _ Q) as (Q1 & Q2). split; auto.
      intros [Z|]; [discriminate|tauto].
    - intros w Hw. rewrite NI. cbn. auto.
    - intros p w [Q|Q]; [discriminate|eauto].
    - intros p r [Q|Q]; [discriminate|eauto].
    - intros p w [|x h1] h2 Q; cbn in Q; [discriminate|]; injection Q as <- Q.
      destruct (G _ _ _ _ Q) as (Q1 & Q2 & Q3). split; [auto|split; [|auto]].
      intros w' [R|R]; [discriminate|]. now apply (Q2 w').
    - intros n [Q|Q]; [discriminate|]. rewrite NI. apply K in Q. lia.
  Qed.

  Lemma hinv_wait v ws np h : hinv v ws np h -> hinv v (ws ++ [v]) np (EWait (length ws) :: h).
  Proof.
    intros H. destruct H as [A B C D E F G K].
    assert (NI : incs (EWait (length ws) :: h) = incs h) by reflexivity.
    assert (NW : ~ In (EWait (length ws)) h) by (rewrite B; lia).
    split.
    - now rewrite NI.
    - intros w. rewrite app_length. cbn. rewrite B. split; [intros [Q|]; [injection Q; lia|lia]|].
      intros Q. destruct (Nat.eq_dec w (length ws)) as [->|]; [now left|right; lia].
    - intros w [|x h1] h2 Q; cbn in Q.
      + injection Q as <- <-. split; [intros []|exact NW].
      + injection Q as <- Q. destruct (C _ _ _ Q) as (Q1 & Q2). split; auto.
        intros [Z|]; [|tauto]. injection Z as <-. apply NW. rewrite Q. apply in_or_app. right. now left.
    - intros w Hw. rewrite app_length in Hw. cbn in Hw. rewrite NI. cbn.
      destruct (Nat.eqb_spec (length ws) w) as [<-|N].
      + rewrite app_nth2 by lia. rewrite Nat.sub_diag. cbn. rewrite A. f_equal. lia.
      + rewrite app_nth1 by lia. apply D. lia.
    - intros p w [Q|Q]; [discriminate|eauto].
    - intros p r [Q|Q]; [discriminate|eauto].
    - intros p w [|x h1] h2 Q; cbn in Q; [discriminate|]; injection Q as <- Q.
      destruct (G _ _ _ _ Q) as (Q1 & Q2 & Q3). split; [auto|split; [|auto]].
      intros w' [R|R]; [discriminate|]. now apply (Q2 w').
    - intros n [Q|Q]; [discriminate|]. rewrite NI. auto.
  Qed.

  Lemma hinv_begin v ws np h w : hinv v ws np h -> w < length ws -> hinv v ws (np + 1) (EPollBegin np w :: h).
  Proof.
    intros H Hw. destruct H as [A B C D E F G K].
    assert (NI : forall p w, incs (EPollBegin p w :: h) = incs h) by reflexivity.
    split.
    - now rewrite NI.
    - intros w'. rewrite <- B. cbn. split; [intros [Q|]; [discriminate|auto]|auto].
    - intros w' [|x h1] h2 Q; cbn in Q; [discriminate|]; injection Q as <- Q.
      destruct (C _ _ _ Q) as (Q1 & Q2). split; auto.
      intros [Z|]; [discriminate|tauto].
    - intros w' Hw'. rewrite NI. cbn. auto.
    - intros p w' [Q|Q]; [injection Q; lia|]. apply E in Q. lia.
    - intros p r [Q|Q]; [discriminate|]. apply F in Q. lia.
    - intros p w' [|x h1] h2 Q; cbn in Q.
      + injection Q as <- <- <-. split; [now apply B|split; [intros ? []|]].
        intros w' Q. apply E in Q. lia.
      + injection Q as <- Q.
        destruct (G _ _ _ _ Q) as (Q1 & Q2 & Q3). split; [auto|split; [|auto]].
        intros w2 [R|R]; [|now apply (Q2 w2)]. injection R as <- <-.
        assert (In (EPollBegin np w') h) by (rewrite Q; apply in_or_app; right; now left).
        apply E in H. lia.
    - intros n [Q|Q]; [discriminate|]. rewrite NI. auto.
  Qed.

  (** What the program counter of one thread claims. *)
  Definition pcinv (h : list nevent) (sl : list (nat * pid)) (c : pc) : Prop :=
    match c with
    | PollLoad1 p w | PollLock p w | PollInsert p w => In (EPollBegin p w) h
    | PollLoad2 p w k => In (EPollBegin p w) h /\ In (k, p) sl
    | PollRemove p k => In (k, p) sl /\ exists w, In (EPollBegin p w) h /\ 1 <= sends_since w h
    | PollUnlock p Ready => exists w, In (EPollBegin p w) h /\ 1 <= sends_since w h
    | PollUnlock p Pending => exists w, In (EPollBegin p w) h
    | Panicked => False
    | SendLock n | SendDrain n => n <= incs h
    | _ => True
    end.

  (** The part about threads. *)
  Record tinv (lk : option tid) (np : nat) (h : list nevent) (sl : list (nat * pid)) (f : tid -> pc) : Prop := {
    tv_lock : forall t, holds_lock (f t) <-> lk = Some t;
    tv_pid_lt : forall t p, pid_of (f t) = Some p -> p < np;
    tv_pid_inj : forall t t' p, pid_of (f t) = Some p -> pid_of (f t') = Some p -> t = t';
    tv_pid_end : forall t p r, pid_of (f t) = Some p -> ~ In (EPollEnd p r) h;
    tv_keys : NoDup (map fst sl);
    tv_slab_reg : forall k p, In (k, p) sl -> In (ERegister p) h;
    tv_pc : forall t, pcinv h sl (f t)
  }.

  Lemma inv_split s : inv s <->
    hinv (version s) (waits s) (next_pid s) (hist s) /\ tinv (lock s) (next_pid s) (hist s) (slab s) (threads s).
  Proof.
    split.
    - intros I. destruct I. split; split; auto.
      intros t. specialize (iv_pc0 t). specialize (iv_send0 t). unfold pcinv.
      destruct (threads s t) eqn:E; auto.
    - intros [[] []]. split; auto.
      + intros t n Q. specialize (tv_pc0 t). destruct Q as [Q|Q]; rewrite Q in tv_pc0; exact tv_pc0.
      + intros t. specialize (tv_pc0 t). unfold pcinv in tv_pc0. destruct (threads s t); auto.
  Qed.

  (** Program counter claims survive new events. *)
  Lemma pcinv_cons e h sl c :
    (forall p w, In (EPollBegin p w) h -> e <> EWait w) -> pcinv h sl c -> pcinv (e :: h) sl c.
  Proof.
    intros N. assert (incs h <= incs (e :: h)) by (unfold incs; cbn; destruct (is_inc e); cbn; lia).
    destruct c; cbn [pcinv]; auto; try lia; try (intros; now right).
    - intros (A & B). split; [now right|auto].
    - intros (A & w & B & C). split; auto. exists w. split; [now right|].
      eapply Nat.le_trans; [exact C|]. apply since_cons. eauto.
    - destruct r.
      + intros (w & B & C). exists w. split; [now right|].
        eapply Nat.le_trans; [exact C|]. apply since_cons. eauto.
      + intros (w & B). exists w. now right.
  Qed.

  (** A thread moves between two places without the lock, or with it. *)
  Lemma tinv_move lk np h sl f t c np' e :
    tinv lk np h sl f ->
    (forall p w, In (EPollBegin p w) h -> e <> Some (EWait w)) ->
    (match e with Some (EPollEnd p r) => pid_of (f t) = Some p /\ pid_of c = None | _ => True end) ->
    let h' := match e with Some e => e :: h | None => h end in
    np <= np' ->
    (holds_lock c <-> holds_lock (f t)) ->
    (pid_of c = pid_of (f t) \/ pid_of c = None
     \/ pid_of c = Some np /\ np' = np + 1 /\ (forall r, ~ In (EPollEnd np r) h')) ->
    pcinv h' sl c ->
    tinv lk np' h' sl (upd f t c).
  Proof.
    intros T HW HE h' Hnp HL HP HC. destruct T as [A B C D E F G].
    assert (W : forall t', pcinv h sl (f t') -> pcinv h' sl (f t')).
    { intros t' Q. subst h'. destruct e as [e|]; auto. apply pcinv_cons; auto.
      intros p w R Z. apply (HW p w R). now rewrite Z. }
    assert (OLD : forall t' p, t' <> t -> pid_of (f t') = Some p -> forall r, ~ In (EPollEnd p r) h').
    { intros t' p N Q r. subst h'. destruct e as [e|]; [|eauto].
      intros [->|R]; [|now apply (D t' p r)]. destruct HE as (HE & _). apply N. eapply C; eauto. }
    split.
    - intros t'. tcase t' t; [rewrite HL; apply A|apply A].
    - intros t' p. tcase t' t; intros Q.
      + destruct HP as [HP|[HP|(HP & H1 & H2)]].
        * rewrite HP in Q. apply B in Q. lia.
        * congruence.
        * rewrite HP in Q. injection Q as <-. lia.
      + apply B in Q. lia.
    - assert (X : forall t' p, t' <> t -> pid_of c = Some p -> pid_of (f t') = Some p -> False).
      { intros t' p N Q1 Q2. destruct HP as [HP|[HP|(HP & H1 & H2)]].
        - apply N. eapply C; [exact Q2|]. congruence.
        - congruence.
        - rewrite HP in Q1. injection Q1 as <-. apply B in Q2. lia. }
      intros t1 t2 p. tcase t1 t; tcase t2 t; intros Q1 Q2; auto.
      + exfalso. eauto.
      + exfalso. eauto.
      + eapply C; eauto.
    - intros t' p r. tcase t' t; intros Q; [|now apply (OLD t')].
      destruct HP as [HP|[HP|(HP & H1 & H2)]].
      + subst h'. destruct e as [e|]; [|apply (D t); congruence].
        intros [->|R]; [destruct HE; congruence|]. revert R. apply (D t); congruence.
      + congruence.
      + rewrite HP in Q. injection Q as <-. apply H2.
    - exact E.
    - intros k p Q. apply F in Q. subst h'. destruct e; [now right|auto].
    - intros t'. tcase t' t; auto.
  Qed.

  (** Taking the lock. *)
  Lemma tinv_lock np h sl f t c :
    tinv None np h sl f -> holds_lock c -> pid_of c = pid_of (f t) -> pcinv h sl c ->
    tinv (Some t) np h sl (upd f t c).
  Proof.
    intros T HL HP HC. destruct T as [A B C D E F G].
    split; auto.
    - intros t'. tcase t' t; [tauto|]. rewrite A. split; congruence.
    - intros t' p. tcase t' t; intros Q; [rewrite HP in Q|]; eauto.
    - intros t1 t2 p. tcase t1 t; tcase t2 t; rewrite ?HP; intros; eauto.
    - intros t' p r. tcase t' t; rewrite ?HP; eauto.
    - intros t'. tcase t' t; auto.
  Qed.

  (** Giving it back and returning. *)
  Lemma tinv_unlock lk np h sl f t e :
    tinv lk np h sl f -> holds_lock (f t) ->
    (match e with EPollEnd p _ => pid_of (f t) = Some p | ESendEnd _ => True | _ => False end) ->
    tinv None np (e :: h) sl (upd f t Idle).
  Proof.
    intros T HL HE. destruct T as [A B C D E F G].
    assert (L : lk = Some t) by (now apply A).
    split.
    - intros t'. tcase t' t; [cbn; split; [tauto|discriminate]|]. rewrite A, L. split; congruence.
    - intros t' p. tcase t' t; intros Q; [discriminate|]; eauto.
    - intros t1 t2 p. tcase t1 t; tcase t2 t; intros; try discriminate; eauto.
    - intros t' p r. tcase t' t; intros Q; [discriminate|].
      intros [->|R]; [|revert R; eapply D; eauto]. apply n. eapply C; eauto.
    - exact E.
    - intros k p Q. right. eauto.
    - intros t'. tcase t' t; [exact I|]. apply pcinv_cons; auto.
      intros p w _ ->. exact HE.
  Qed.

  (** A change of the slab by the holder of the lock. *)
  Lemma tinv_slab lk np h sl f t c sl' e :
    tinv lk np h sl f -> holds_lock (f t) -> holds_lock c -> pid_of c = pid_of (f t) ->
    match e with Some (EWait _) | Some (EPollEnd _ _) => False | _ => True end ->
    let h' := match e with Some e => e :: h | None => h end in
    NoDup (map fst sl') ->
    (forall k p, In (k, p) sl' -> In (ERegister p) h') ->
    pcinv h' sl' c ->
    tinv lk np h' sl' (upd f t c).
  Proof.
    intros T HL HL' HP He h' HN HR HC. destruct T as [A B C D E F G].
    assert (L : lk = Some t) by (now apply A).
    split; auto.
    - intros t'. tcase t' t; [tauto|]. apply A.
    - intros t' p. tcase t' t; intros Q; [rewrite HP in Q|]; eauto.
    - intros t1 t2 p. tcase t1 t; tcase t2 t; rewrite ?HP; intros; eauto.
    - assert (X : forall p r, In (EPollEnd p r) h' -> In (EPollEnd p r) h).
      { intros p r. subst h'. destruct e as [e|]; auto. intros [->|]; auto. contradiction. }
      intros t' p r. tcase t' t; rewrite ?HP; intros Q R; apply X in R; exact (D _ _ _ Q R).
    - intros t'. tcase t' t; auto.
      assert (N : ~ holds_lock (f t')) by (rewrite A, L; congruence).
      assert (Q : pcinv h' sl (f t')).
      { subst h'. destruct e as [e|]; auto. apply pcinv_cons; auto. intros p w _ ->. exact He. }
      destruct (f t'); cbn in *; tauto.
  Qed.

  Lemma nodup_fst_filter (sl : list (nat * pid)) f : NoDup (map fst sl) -> NoDup (map fst (filter f sl)).
  Proof.
    induction sl as [|[k p] sl IH]; cbn; auto. intros N. inversion N; subst.
    destruct (f (k, p)); cbn; auto. constructor; auto.
    intros Q. apply H1. apply in_map_iff in Q as ([k' p'] & E & Q). cbn in E. subst.
    apply filter_In in Q as (Q & _). apply in_map_iff. now exists (k, p').
  Qed.

  Lemma inv_step t s s' : inv s -> nstep modulus t s s' -> inv s'.
  Proof.
    intros I ST. pose proof (proj1 (inv_split s) I) as (H & T). apply inv_split.
    pose proof (tv_pc _ _ _ _ _ T t) as PC.
    inversion ST; subst; cbn;
      match goal with Q : threads s t = _ |- _ => rewrite Q in PC; cbn in PC; pose proof Q as TH end.
    - split; auto. apply (tinv_move _ _ _ _ _ _ _ _ None T); cbn; auto; try congruence; try tauto.
      rewrite TH. cbn. tauto.
    - split; [now apply hinv_wait|].
      apply (tinv_move _ _ _ _ _ _ _ _ (Some (EWait (length (waits s)))) T); cbn; auto; try congruence; try tauto.
      + intros p w Q Z. injection Z as <-. apply (begin_wait _ _ _ I) in Q. lia.
      + rewrite TH. cbn. tauto.
    - split; [now apply hinv_quiet|].
      apply (tinv_move _ _ _ _ _ _ _ _ (Some (ESendBegin t)) T); cbn; auto; try congruence; try tauto.
      rewrite TH. cbn. tauto.
    - split; [now apply hinv_inc|].
      apply (tinv_move _ _ _ _ _ _ _ _ (Some EInc) T); cbn; auto; try congruence; try tauto.
      + rewrite TH. cbn. tauto.
      + unfold incs. cbn. lia.
    - split; auto. rewrite H1 in T. apply tinv_lock; cbn; auto. now rewrite TH.
    - split; [now apply hinv_quiet|].
      assert (Z : tinv (lock s) (next_pid s) (EWake p :: hist s) (sl1 ++ sl2) (upd (threads s) t (SendDrain n))).
      { apply (tinv_slab _ _ _ _ _ _ _ _ (Some (EWake p)) T); cbn; auto; rewrite ?TH; cbn; auto.
        - pose proof (tv_keys _ _ _ _ _ T) as N. rewrite H1, map_app in N. cbn in N.
          apply NoDup_remove_1 in N. now rewrite map_app.
        - intros k' p' Q. right. apply (tv_slab_reg _ _ _ _ _ T k'). rewrite H1.
          apply in_app_or in Q. apply in_or_app. destruct Q; [auto|right; now right]. }
      assert (EQ : forall t', upd (threads s) t (SendDrain n) t' = threads s t').
      { intros t'. tcase t' t; auto. }
      destruct Z as [A B C D E F G]. split; auto.
      + intros t'. rewrite <- EQ. apply A.
      + intros t' p'. rewrite <- EQ. apply B.
      + intros t1 t2 p'. rewrite <- (EQ t1), <- (EQ t2). apply C.
      + intros t' p' r. rewrite <- EQ. apply D.
      + intros t'. rewrite <- EQ. apply G.
    - split; [now apply hinv_quiet|]. apply (tinv_unlock _ _ _ _ _ _ _ T); cbn; auto. rewrite TH. exact Logic.I.
    - split; [now apply hinv_begin|].
      apply (tinv_move _ _ _ _ _ _ _ _ (Some (EPollBegin (next_pid s) w)) T); cbn; auto; try congruence; try lia.
      + rewrite TH. cbn. tauto.
      + right. right. split; [auto|split; [auto|]]. intros r [Q|Q]; [discriminate|].
        apply (iv_end_lt _ I) in Q. lia.
    - destruct (Nat.eqb_spec (nth w (waits s) 0) (version s)) as [E|N]; cbn.
      + split; auto. apply (tinv_move _ _ _ _ _ _ _ _ None T); cbn; auto; try congruence; try tauto; rewrite TH; cbn; tauto.
      + split; [apply hinv_quiet; [auto|]|].
        * apply (tv_pid_lt _ _ _ _ _ T t). now rewrite TH.
        * apply (tinv_move _ _ _ _ _ _ _ _ (Some (EPollEnd p Ready)) T); cbn; auto; try congruence; try tauto;
            rewrite TH; cbn; tauto.
    - split; auto. rewrite H1 in T. apply tinv_lock; cbn; auto. now rewrite TH.
    - split; [now apply hinv_quiet|].
      apply (tinv_slab _ _ _ _ _ _ _ _ (Some (ERegister p)) T); cbn; auto; rewrite ?TH; cbn; auto.
      + constructor; auto. apply (tv_keys _ _ _ _ _ T).
      + intros k' p' [Q|Q]; [injection Q as <- <-; now left|].
        right. now apply (tv_slab_reg _ _ _ _ _ T k').
    - split; auto. destruct PC as (PB & PS).
      apply (tinv_move _ _ _ _ _ _ _ _ None T); cbn; auto; try congruence; try tauto.
      + rewrite TH. destruct (Nat.eqb _ _); cbn; tauto.
      + left. rewrite TH. destruct (Nat.eqb _ _); reflexivity.
      + destruct (Nat.eqb_spec (nth w (waits s) 0) (version s)) as [E|N]; cbn; [eauto|].
        split; auto. exists w. split; auto. apply version_neq; auto. eapply begin_wait; eauto.
    - split; auto. destruct PC as (PS & w & PB & PW).
      assert (X : existsb (fun e => Nat.eqb (fst e) k) (slab s) = true).
      { apply existsb_exists. exists (k, p). split; auto. apply Nat.eqb_refl. }
      rewrite X.
      apply (tinv_slab _ _ _ _ _ _ _ _ None T); cbn; auto; rewrite ?TH; cbn; auto.
      + apply nodup_fst_filter. apply (tv_keys _ _ _ _ _ T).
      + intros k' p' Q. apply filter_In in Q as (Q & _). now apply (tv_slab_reg _ _ _ _ _ T k').
      + eauto.
    - split; [apply hinv_quiet; [auto|]|].
      + apply (tv_pid_lt _ _ _ _ _ T t). now rewrite TH.
      + apply (tinv_unlock _ _ _ _ _ _ _ T); cbn; auto; rewrite TH; cbn; auto.
  Qed.

  Lemma inv_reach s : nreach modulus s -> inv s.
  Proof. induction 1; [apply inv_init|eapply inv_step; eauto]. Qed.

  Lemma hist_step t s s' : nstep modulus t s s' ->
    hist s' = hist s \/ exists e, hist s' = e :: hist s
      /\ (forall w, e = EWait w -> w = length (waits s))
      /\ (forall p w, e = EPollBegin p w -> p = next_pid s /\ w < length (waits s))
      /\ (forall n, e = ESendEnd n -> slab s = [])
      /\ (forall p r, e = EPollEnd p r ->
            threads s t = PollUnlock p r \/ r = Ready /\ exists w, threads s t = PollLoad1 p w /\ nth w (waits s) 0 <> version s).
  Proof.
    intros ST. inversion ST; subst; cbn; auto.
    all: try (destruct (Nat.eqb_spec (nth w (waits s) 0) (version s)); cbn; auto).
    all: right; eexists; (split; [reflexivity|]);
      repeat split; intros; try discriminate; auto;
      match goal with Q : _ = _ :> nevent |- _ => injection Q; intros; subst; auto end.
    right. eauto.
  Qed.

  (** ** C42 *)
  Lemma ready_means_sent s : nreach modulus s -> forall h1 p h2,
    hist s = h1 ++ EPollEnd p Ready :: h2 -> exists w, In (EPollBegin p w) h2 /\ 1 <= sends_since w h2.
  Proof.
    induction 1 as [|t s s' R IH ST]; intros h1 p h2 E.
    - destruct h1; discriminate.
    - destruct (hist_step _ _ _ ST) as [Q|(e & Q & _ & _ & _ & Z)]; rewrite Q in E; [eauto|].
      destruct h1 as [|x h1]; cbn in E; injection E as -> E; [|eauto]. subst h2.
      pose proof (inv_reach _ R) as I. pose proof (iv_pc _ I t) as PC.
      destruct (Z _ _ eq_refl) as [TH|(_ & w & TH & N)]; rewrite TH in PC; auto.
      exists w. split; auto. apply version_neq; auto. eapply begin_wait; eauto.
  Qed.

  Lemma since_suffix s w p h1 h2 : inv s -> hist s = h1 ++ EPollBegin p w :: h2 ->
    sends_since w h2 <= sends_since w (hist s).
  Proof.
    intros I E. destruct (iv_begin_wait _ I _ _ _ _ E) as (W & _).
    apply in_split in W as (a & b & W). subst h2.
    assert (Z : hist s = (h1 ++ EPollBegin p w :: a) ++ EWait w :: b) by (rewrite E, <- app_assoc; reflexivity).
    destruct (iv_wait_one _ I _ _ _ Z) as (N & _).
    rewrite E. rewrite (since_app w h1) by (intros Q; apply N, in_or_app; now left). cbn. lia.
  Qed.

  Definition unlock_pending (s : nstate) : Prop := forall t p,
    threads s t = PollUnlock p Pending -> forall w h1 h2, hist s = h1 ++ EPollBegin p w :: h2 ->
    sends_since w (hist s) < modulus -> sends_since w h2 = 0.

  Lemma begin_unique s p w w' : inv s -> In (EPollBegin p w) (hist s) -> In (EPollBegin p w') (hist s) -> w = w'.
  Proof.
    intros I A B. apply in_split in A as (h1 & h2 & E).
    destruct (iv_begin_wait _ I _ _ _ _ E) as (_ & N1 & N2).
    rewrite E in B. apply in_app_or in B as [B|[B|B]].
    - now apply N1 in B.
    - now injection B.
    - now apply N2 in B.
  Qed.

  (** Steps of others, and the first events of a thread. *)
  Lemma threads_step t s s' t' : nstep modulus t s s' -> t' <> t -> threads s' t' = threads s t'.
  Proof.
    intros ST N. inversion ST; subst; cbn; rewrite ?upd_other by auto; auto.
    destruct (Nat.eqb _ _); cbn; rewrite ?upd_other by auto; auto.
  Qed.

  Lemma since_step t s s' w : inv s -> nstep modulus t s s' -> w < length (waits s) ->
    sends_since w (hist s) <= sends_since w (hist s').
  Proof.
    intros I ST Hw. destruct (hist_step _ _ _ ST) as [Q|(e & Q & Z & _)]; rewrite Q; auto.
    apply since_cons. intros ->. specialize (Z _ eq_refl). lia.
  Qed.

  Lemma to_unlock_pending t s s' p : nstep modulus t s s' -> threads s' t = PollUnlock p Pending ->
    threads s t = PollUnlock p Pending \/
    hist s' = hist s /\ slab s' = slab s /\ lock s' = lock s /\
    exists w k, threads s t = PollLoad2 p w k /\ nth w (waits s) 0 = version s.
  Proof.
    intros ST TH. inversion ST; subst; cbn in TH; rewrite ?upd_same in TH; try discriminate; auto.
    - destruct (Nat.eqb _ _); cbn in TH; rewrite ?upd_same in TH; discriminate.
    - destruct (Nat.eqb_spec (nth w (waits s) 0) (version s)); [|discriminate].
      injection TH as ->. right. cbn. eauto 10.
    - destruct (existsb _ _); discriminate.
  Qed.

  Lemma unlock_pending_reach s : nreach modulus s -> unlock_pending s.
  Proof.
    induction 1 as [|t s s' R IH ST]; intros t' p TH w h1 h2 E L; [discriminate|].
    pose proof (inv_reach _ R) as I.
    assert (STAY : threads s t' = PollUnlock p Pending -> sends_since w h2 = 0).
    { intros TH0.
      pose proof (iv_pc _ I t') as PC. rewrite TH0 in PC. destruct PC as (w0 & PB).
      pose proof (iv_begin_lt _ I _ _ PB) as PL.
      destruct (hist_step _ _ _ ST) as [Q|(e & Q & Z & Z2 & _)].
      - rewrite Q in *. eapply IH; eauto.
      - rewrite Q in E. destruct h1 as [|x h1]; cbn in E; injection E as -> E.
        + destruct (Z2 _ _ eq_refl). lia.
        + eapply IH; eauto. eapply Nat.le_lt_trans; [|exact L].
          eapply since_step; eauto. eapply begin_wait; eauto. rewrite E. apply in_or_app. right. now left. }
    destruct (Nat.eq_dec t' t) as [->|N].
    - destruct (to_unlock_pending _ _ _ _ ST TH) as [TH0|(Q & _ & _ & w0 & k & TH0 & V)]; auto.
      rewrite Q in *. pose proof (iv_pc _ I t) as PC. rewrite TH0 in PC. destruct PC as (PB & _).
      assert (PB2 : In (EPollBegin p w) (hist s)) by (rewrite E; apply in_or_app; right; now left).
      assert (w0 = w) by (eapply begin_unique; eauto). subst w0.
      pose proof (since_suffix _ _ _ _ _ I E).
      pose proof (version_eq _ _ I (begin_wait _ _ _ I PB) L V). lia.
    - apply STAY. rewrite <- TH. symmetry. eapply threads_step; eauto.
  Qed.

  Lemma pending_means_unsent s : nreach modulus s -> forall h1 p h2 w h3,
    hist s = h1 ++ EPollEnd p Pending :: h2 ++ EPollBegin p w :: h3 ->
    sends_since w (h2 ++ EPollBegin p w :: h3) < modulus -> sends_since w h3 = 0.
  Proof.
    induction 1 as [|t s s' R IH ST]; intros h1 p h2 w h3 E L.
    - destruct h1; discriminate.
    - destruct (hist_step _ _ _ ST) as [Q|(e & Q & _ & _ & _ & Z)]; rewrite Q in E; [eauto|].
      destruct h1 as [|x h1]; cbn in E; injection E as -> E; [|eauto].
      destruct (Z _ _ eq_refl) as [TH|(? & _)]; [|discriminate].
      rewrite <- E in L. eapply unlock_pending_reach; eauto.
  Qed.

  (** ** C43 *)
  Lemma addition_cons w n e h : addition_after w n (e :: h) -> addition_after w n h \/ e = EInc /\ n = incs h + 1.
  Proof.
    intros ([|x later] & b & ea & E & N); cbn in E; injection E as -> E.
    - right. rewrite E. auto.
    - left. now exists later, b, ea.
  Qed.

  Lemma addition_since s w n : inv s -> addition_after w n (hist s) -> 1 <= sends_since w (hist s).
  Proof.
    intros I (l & b & ea & E & _).
    assert (Z : hist s = (l ++ EInc :: b) ++ EWait w :: ea) by (rewrite E, <- app_assoc; reflexivity).
    destruct (iv_wait_one _ I _ _ _ Z) as (N & _).
    rewrite Z, since_app, incs_app by auto. unfold incs. cbn. lia.
  Qed.

  Definition before_cons a b e h : before a b h -> before a b (e :: h).
  Proof. intros (l & m & n & E). exists (e :: l), m, n. now rewrite E. Qed.

  (** [p] registered and is about to return, or returned, [Pending]. *)
  Definition settled (s : nstate) (p : pid) : Prop :=
    (exists t, threads s t = PollUnlock p Pending) \/ In (EPollEnd p Pending) (hist s).

  Definition wake_inv (s : nstate) : Prop := forall p w,
    settled s p -> In (EPollBegin p w) (hist s) -> sends_since w (hist s) < modulus ->
    (exists k, In (k, p) (slab s)) /\ (forall n, In (ESendEnd n) (hist s) -> ~ addition_after w n (hist s))
    \/ before (ERegister p) (EWake p) (hist s).

  Lemma slab_step t s s' k p : inv s -> nstep modulus t s s' -> In (k, p) (slab s) ->
    In (k, p) (slab s') \/ hist s' = EWake p :: hist s \/ pid_of (threads s t) = Some p /\ threads s t = PollRemove p k.
  Proof.
    intros I ST K. inversion ST; subst; cbn; auto.
    - rewrite H0 in K. apply in_app_or in K as [K|[K|K]].
      + left. apply in_or_app. auto.
      + injection K as <- <-. auto.
      + left. apply in_or_app. auto.
    - destruct (Nat.eqb _ _); auto.
    - destruct (Nat.eq_dec k0 k) as [->|N].
      + right. right. pose proof (iv_pc _ I t) as PC. rewrite H in *. destruct PC as (PS & _).
        assert (p0 = p) by (pose proof (iv_keys _ I) as ND; clear - ND K PS;
          induction (slab s) as [|[k1 p1] sl IH]; cbn in *; [tauto|]; inversion ND; subst;
          destruct K as [K|K], PS as [PS|PS]; [congruence| | |auto];
          exfalso; apply H1; apply in_map_iff;
          [injection K as <- <-; exists (k1, p0)|injection PS as <- <-; exists (k1, p)]; auto).
        subst. auto.
      + left. apply filter_In. split; auto. cbn. now rewrite (proj2 (Nat.eqb_neq k k0)) by auto.
  Qed.

  Lemma wake_inv_reach s : nreach modulus s -> wake_inv s.
  Proof.
    induction 1 as [|t s s' R IH ST]; intros p w SE PB L.
    - destruct SE as [(t & Q)|[]]; discriminate.
    - pose proof (inv_reach _ R) as I.
      pose proof (inv_reach _ (nr_step R ST)) as I'.
      (* was it settled before? *)
      assert (CASES : settled s p \/ hist s' = hist s /\ slab s' = slab s /\ exists w k,
                threads s t = PollLoad2 p w k /\ nth w (waits s) 0 = version s).
      { destruct SE as [(t' & TH)|EN].
        - destruct (Nat.eq_dec t' t) as [->|N].
          + destruct (to_unlock_pending _ _ _ _ ST TH) as [Q|(Q1 & Q2 & _ & Q3)]; [left; left; eauto|right; auto].
          + left. left. exists t'. rewrite <- TH. symmetry. eapply threads_step; eauto.
        - left. destruct (hist_step _ _ _ ST) as [Q|(e & Q & _ & _ & _ & Z)]; rewrite Q in EN; [now right|].
          destruct EN as [EN|EN]; [subst e|now right].
          destruct (Z _ _ eq_refl) as [TH|(? & _)]; [|discriminate]. left. eauto. }
      destruct CASES as [OLD|(Q1 & Q2 & w0 & k & TH & V)].
      + (* settled before: its begin is old *)
        assert (PB0 : In (EPollBegin p w) (hist s)).
        { destruct (hist_step _ _ _ ST) as [Q|(e & Q & _ & Z & _)]; rewrite Q in PB; auto.
          destruct PB as [->|]; auto. destruct (Z _ _ eq_refl) as (-> & _). exfalso.
          destruct OLD as [(t' & TH)|EN].
          - assert (next_pid s < next_pid s) by (apply (iv_pid_lt _ I t'); now rewrite TH). lia.
          - apply (iv_end_lt _ I) in EN. lia. }
        assert (Hw := begin_wait _ _ _ I PB0).
        assert (L0 : sends_since w (hist s) < modulus)
          by (eapply Nat.le_lt_trans; [eapply since_step; eauto|exact L]).
        destruct (IH p w OLD PB0 L0) as [((k & K) & NA)|B].
        * destruct (slab_step _ _ _ _ _ I ST K) as [K'|[WK|(PO & TH)]].
          -- (* still in the slab *)
             left. split; [eauto|]. intros n EN AD.
             destruct (hist_step _ _ _ ST) as [Q|(e & Q & _ & _ & Z & _)]; rewrite Q in EN, AD; [now apply (NA n)|].
             destruct EN as [->|EN].
             ++ specialize (Z _ eq_refl). rewrite Z in K. destruct K.
             ++ destruct (addition_cons _ _ _ _ AD) as [AD0|(-> & ->)]; [now apply (NA n)|].
                apply (iv_send_end _ I) in EN. lia.
          -- right. rewrite WK. pose proof (iv_slab_reg _ I _ _ K) as RG.
             apply in_split in RG as (a & b & RG). exists [], a, b. now rewrite RG.
          -- exfalso. destruct OLD as [(t' & TH')|EN].
             ++ assert (t' = t) by (apply (iv_pid_inj _ I t' t p); rewrite ?TH', ?TH; auto). subst. congruence.
             ++ now apply (iv_pid_end _ I t p Pending PO).
        * right. destruct (hist_step _ _ _ ST) as [Q|(e & Q & _)]; rewrite Q; auto. now apply before_cons.
      + (* just settled *)
        rewrite Q1, Q2 in *. pose proof (iv_pc _ I t) as PC. rewrite TH in PC. destruct PC as (PB1 & PS).
        assert (w0 = w) by exact (begin_unique s p w0 w I PB1 PB). subst w0.
        pose proof (version_eq _ _ I (begin_wait _ _ _ I PB) L V) as Z.
        left. split; [eauto|]. intros n _ AD. apply (addition_since _ _ _ I) in AD. lia.
  Qed.

  (** ** C44 *)
  Lemma nsteps_trans s1 s2 s3 : nsteps modulus s1 s2 -> nsteps modulus s2 s3 -> nsteps modulus s1 s3.
  Proof. induction 1; auto. intros. econstructor; eauto. Qed.

  Lemma nsteps_reach s s' : nreach modulus s -> nsteps modulus s s' -> nreach modulus s'.
  Proof. intros R H. induction H; auto. apply IHnsteps. econstructor; eauto. Qed.

  Lemma one_step t s s' : threads s t <> Idle -> nstep modulus t s s' -> nsteps modulus s s'.
  Proof. intros N ST. eapply ns_step; [exact N|exact ST|constructor]. Qed.

  Definition fresh_key (sl : list (nat * pid)) : nat := S (fold_right Nat.max 0 (map fst sl)).
  Lemma fresh_key_ok sl : ~ In (fresh_key sl) (map fst sl).
  Proof.
    unfold fresh_key. assert (H : forall k, In k (map fst sl) -> k <= fold_right Nat.max 0 (map fst sl)).
    { induction (map fst sl) as [|x l IH]; cbn; [tauto|]. intros k [->|Q]; [lia|]. apply IH in Q. lia. }
    intros Q. apply H in Q. lia.
  Qed.

  (** The holder of the lock can return on its own. *)
  Lemma release s t : nreach modulus s -> holds_lock (threads s t) ->
    exists s', nsteps modulus s s' /\ lock s' = None /\ threads s' t = Idle
      /\ forall t', t' <> t -> threads s' t' = threads s t'.
  Proof.
    (* unlocking *)
    assert (UN : forall s p r, nreach modulus s -> threads s t = PollUnlock p r ->
      exists s', nsteps modulus s s' /\ lock s' = None /\ threads s' t = Idle
        /\ forall t', t' <> t -> threads s' t' = threads s t').
    { clear s. intros s p r R TH. eexists. split; [|split; [|split]].
      - eapply one_step; [|eapply st_poll_unlock, TH]. congruence.
      - reflexivity.
      - cbn. apply upd_same.
      - intros t' N. cbn. now apply upd_other. }
    assert (TR : forall s s1, nstep modulus t s s1 -> threads s t <> Idle ->
      (exists s', nsteps modulus s1 s' /\ lock s' = None /\ threads s' t = Idle
        /\ forall t', t' <> t -> threads s' t' = threads s1 t') ->
      exists s', nsteps modulus s s' /\ lock s' = None /\ threads s' t = Idle
        /\ forall t', t' <> t -> threads s' t' = threads s t').
    { clear s. intros s s1 ST N (s' & A & B & C & D). exists s'. split; [eapply ns_step; eauto|].
      split; [auto|split; auto]. intros t' N'. rewrite D by auto. eapply threads_step; eauto. }
    assert (RM : forall s p k, nreach modulus s -> threads s t = PollRemove p k ->
      exists s', nsteps modulus s s' /\ lock s' = None /\ threads s' t = Idle
        /\ forall t', t' <> t -> threads s' t' = threads s t').
    { clear s. intros s p k R TH. pose proof (st_poll_remove modulus t s TH) as ST.
      pose proof (nr_step R ST) as R'.
      assert (X : existsb (fun e => Nat.eqb (fst e) k) (slab s) = true).
      { pose proof (iv_pc _ (inv_reach _ R) t) as PC. rewrite TH in PC. destruct PC as (PS & _).
        apply existsb_exists. exists (k, p). split; auto. apply Nat.eqb_refl. }
      rewrite X in ST, R'.
      eapply TR; [exact ST|congruence|]. eapply UN; [exact R'|]. cbn. apply upd_same. }
    assert (LD : forall s p w k, nreach modulus s -> threads s t = PollLoad2 p w k ->
      exists s', nsteps modulus s s' /\ lock s' = None /\ threads s' t = Idle
        /\ forall t', t' <> t -> threads s' t' = threads s t').
    { clear s. intros s p w k R TH. pose proof (st_poll_load2 modulus t s TH) as ST.
      pose proof (nr_step R ST) as R'.
      eapply TR; [exact ST|congruence|].
      destruct (Nat.eqb (nth w (waits s) 0) (version s)).
      - eapply UN; [exact R'|]. cbn. apply upd_same.
      - eapply RM; [exact R'|]. cbn. apply upd_same. }
    assert (DR : forall len s n, length (slab s) = len -> nreach modulus s -> threads s t = SendDrain n ->
      exists s', nsteps modulus s s' /\ lock s' = None /\ threads s' t = Idle
        /\ forall t', t' <> t -> threads s' t' = threads s t').
    { clear s. induction len as [|len IH]; intros s n E R TH.
      - assert (Z : slab s = []) by (destruct (slab s); [auto|discriminate]).
        eexists. split; [|split; [|split]].
        + eapply one_step; [|eapply st_send_end; eauto]. congruence.
        + reflexivity.
        + cbn. apply upd_same.
        + intros t' N. cbn. now apply upd_other.
      - destruct (slab s) as [|[k p] sl] eqn:Z; [discriminate|].
        pose proof (@st_send_wake modulus t s n k p [] sl TH Z) as ST.
        eapply TR; [exact ST|congruence|]. eapply (IH _ n); [cbn; cbn in E; lia|exact (nr_step R ST)|exact TH]. }
    intros R HL. destruct (threads s t) eqn:TH; cbn in HL; try tauto.
    - eapply DR; eauto.
    - pose proof (@st_poll_insert modulus t s p w _ TH (fresh_key_ok (slab s))) as ST.
      eapply TR; [exact ST|congruence|]. eapply LD; [exact (nr_step R ST)|]. cbn. apply upd_same.
    - eapply LD; eauto.
    - eapply RM; eauto.
    - eapply UN; eauto.
  Qed.

  Lemma complete s t : nreach modulus s -> exists s', nsteps modulus s s' /\ threads s' t = Idle.
  Proof.
    intros R.
    assert (LOCKED : forall s, nreach modulus s -> holds_lock (threads s t) ->
              exists s', nsteps modulus s s' /\ threads s' t = Idle).
    { clear s R. intros s R HL. destruct (release _ _ R HL) as (s' & A & _ & B & _). eauto. }
    assert (WANTS : forall s, nreach modulus s -> (forall s0, nreach modulus s0 -> lock s0 = None ->
                 threads s0 t = threads s t -> exists s1, nstep modulus t s0 s1 /\ holds_lock (threads s1 t)) ->
              threads s t <> Idle -> ~ holds_lock (threads s t) ->
              exists s', nsteps modulus s s' /\ threads s' t = Idle).
    { clear s R. intros s R W NI NH.
      assert (FREE : exists s0, nsteps modulus s s0 /\ lock s0 = None /\ threads s0 t = threads s t).
      { destruct (lock s) as [t'|] eqn:LK.
        - assert (HL : holds_lock (threads s t')) by (now apply (iv_lock _ (inv_reach _ R))).
          destruct (release _ _ R HL) as (s' & A & B & _ & D). exists s'. split; [auto|split; [auto|]].
          apply D. intros ->. contradiction.
        - exists s. split; [constructor|auto]. }
      destruct FREE as (s0 & A & B & C).
      pose proof (nsteps_reach _ _ R A) as R0.
      destruct (W s0 R0 B C) as (s1 & ST & HL).
      destruct (LOCKED s1 (nr_step R0 ST) HL) as (s2 & D & E).
      exists s2. split; [|auto]. eapply nsteps_trans; [exact A|]. eapply ns_step; [|exact ST|exact D].
      unfold begins. now rewrite C. }
    destruct (threads s t) eqn:TH.
    - exists s. split; [constructor|auto].
    - eexists. split; [eapply one_step; [|eapply st_wait_load, TH]; congruence|]. cbn. apply upd_same.
    - pose proof (st_send_add modulus t s TH) as ST.
      destruct (WANTS _ (nr_step R ST)) as (s' & A & B).
      + intros s0 R0 LK E. cbn in E. rewrite upd_same in E. eexists. split; [eapply st_send_lock; eauto|].
        cbn. rewrite upd_same. exact I.
      + cbn. rewrite upd_same. discriminate.
      + cbn. rewrite upd_same. cbn. tauto.
      + exists s'. split; auto. eapply ns_step; [|exact ST|exact A]. unfold begins. congruence.
    - apply WANTS; rewrite ?TH; auto; try discriminate.
      intros s0 R0 LK E. eexists. split; [eapply st_send_lock; eauto|]. cbn. rewrite upd_same. exact I.
    - apply LOCKED; auto. rewrite TH. exact I.
    - pose proof (st_poll_load1 modulus t s TH) as ST. pose proof (nr_step R ST) as R'.
      destruct (Nat.eqb (nth w (waits s) 0) (version s)).
      + destruct (WANTS _ R') as (s' & A & B).
        * intros s0 R0 LK E. cbn in E. rewrite upd_same in E. eexists. split; [eapply st_poll_lock; eauto|].
          cbn. rewrite upd_same. exact I.
        * cbn. rewrite upd_same. discriminate.
        * cbn. rewrite upd_same. cbn. tauto.
        * exists s'. split; auto. eapply ns_step; [|exact ST|exact A]. unfold begins. congruence.
      + eexists. split; [eapply one_step; [|exact ST]; congruence|]. cbn. apply upd_same.
    - apply WANTS; rewrite ?TH; auto; try discriminate.
      intros s0 R0 LK E. eexists. split; [eapply st_poll_lock; eauto|]. cbn. rewrite upd_same. exact I.
    - apply LOCKED; auto. rewrite TH. exact I.
    - apply LOCKED; auto. rewrite TH. exact I.
    - apply LOCKED; auto. rewrite TH. exact I.
    - apply LOCKED; auto. rewrite TH. exact I.
    - exfalso. pose proof (iv_pc _ (inv_reach _ R) t) as PC. now rewrite TH in PC.
  Qed.

  Lemma reach_prefix s : nreach modulus s -> forall a b, hist s = a ++ b -> exists s0, nreach modulus s0 /\ hist s0 = b.
  Proof.
    induction 1 as [|t s s' R IH ST]; intros a b E.
    - cbn in E. destruct a; [|discriminate]. exists ninit. split; [constructor|auto].
    - destruct (hist_step _ _ _ ST) as [Q|(e & Q & _)]; rewrite Q in E; [eauto|].
      destruct a as [|x a]; cbn in E.
      + exists s'. split; [econstructor; eauto|]. congruence.
      + injection E as -> E. eauto.
  Qed.

  Lemma stays_ready s : nreach modulus s -> forall h1 p' r h2 w h3 p,
    hist s = h1 ++ EPollEnd p' r :: h2 ++ EPollBegin p' w :: h3 ->
    In (EPollBegin p w) h3 -> In (EPollEnd p Ready) h3 ->
    sends_since w (h2 ++ EPollBegin p' w :: h3) < modulus -> r = Ready.
  Proof.
    intros R h1 p' r h2 w h3 p E PB PE L. destruct r; auto. exfalso.
    pose proof (pending_means_unsent _ R _ _ _ _ _ E L) as Z.
    destruct (reach_prefix _ R (h1 ++ EPollEnd p' Pending :: h2 ++ [EPollBegin p' w]) h3) as (s0 & R0 & E0).
    { rewrite E. repeat (rewrite <- app_assoc; cbn). reflexivity. }
    apply in_split in PE as (a & b & PE). rewrite PE in E0.
    destruct (ready_means_sent _ R0 _ _ _ E0) as (w' & PB' & S).
    pose proof (inv_reach _ R0) as I0.
    assert (w' = w).
    { eapply (begin_unique s0 p); eauto; rewrite E0; [apply in_or_app; right; now right|].
      rewrite <- PE. exact PB. }
    subst w'. apply in_split in PB' as (c & d & ->).
    assert (E1 : hist s0 = (a ++ EPollEnd p Ready :: c) ++ EPollBegin p w :: d)
      by (rewrite E0, <- app_assoc; reflexivity).
    destruct (iv_begin_wait _ I0 _ _ _ _ E1) as (W & _).
    apply in_split in W as (x & y & ->).
    assert (E2 : hist s0 = (a ++ EPollEnd p Ready :: c ++ EPollBegin p w :: x) ++ EWait w :: y).
    { rewrite E0. repeat (rewrite <- app_assoc; cbn). reflexivity. }
    destruct (iv_wait_one _ I0 _ _ _ E2) as (N & _).
    rewrite PE, (since_app w a) in Z by (intros Q; apply N, in_or_app; now left).
    cbn in Z. lia.
  Qed.
End Inv.
