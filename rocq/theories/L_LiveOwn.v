(** * L_LiveOwn: parsers of the user's own that may succeed at the end. *)
From Coq Require Import Lia.
From Verif Require Import L_Live L_LiveJoin S_LiveJoin P_Runner P_Live P_LiveJoin.

Lemma modest_honest {T O} (p : @looker T O) : modest p -> honest p.
Proof.
  intros (M & G). split; [exact M|]. split; [eauto|]. intros ss st n o _ E. rewrite G in E. discriminate.
Qed.

Lemma made_honest {T O E} (p : lparser T O E) : well_made p -> all_honest p.
Proof. induction p; cbn [well_made all_honest]; intuition auto using modest_honest. Qed.

Section Prim.
  Context {T O : Type} (modulus : nat) (p : @looker T O).
  Variables (x0 : @shared T) (b : gbuffer) (q : list (list T)).
  Hypothesis version_small : version x0 < modulus.
  Hypothesis start : ahead (sh_heap x0) (sh_tail x0) b q.
  Hypothesis sincere : honest p.

  Definition own_inv (l : lstate p) : Prop :=
    match l with
    | LLook b' st s => b' = b /\ sreach modulus x0 b s /\ witnessed p (returned (s_hist s)) (inl st)
    | LAdvance h o a => exists s n, sreach modulus x0 b s /\ s_hist s = h /\ areach modulus (s_sh s) b n a /\
        (witnessed p (returned h) (inr (VTake n o)) \/
         exists st h2, witnessed p (returned h2) (inl st) /\ lk_step p st None = inr (VTake n o) /\ h = EReturn None :: h2)
    | LMiss b' s => b' = b /\ sreach modulus x0 b s /\
        (witnessed p (returned (s_hist s)) (inr VMiss) \/
         exists st h1 h2, witnessed p (returned h2) (inl st) /\ lk_step p st None = inr VMiss /\
           s_hist s = h1 ++ EReturn None :: h2)
    end.

  Lemma own_reach l : lreach modulus p x0 b l -> own_inv l.
  Proof.
    intros R. induction R as [|l l' R IH St].
    - cbn. split; [auto|]. split; [constructor|]. rewrite start_returned. constructor.
    - destruct St; cbn in IH.
      + destruct IH as (-> & R' & S). cbn. split; [auto|]. split.
        * eapply sr_step; [exact R'|]. now constructor.
        * cbn in S. now rewrite (loader_returned _ _ _ _ _ H).
      + destruct IH as (-> & R' & S). cbn. split; [auto|]. split; [eapply sr_step; eauto|].
        now rewrite (step_returned _ _ _ H H0).
      + destruct IH as (-> & R' & S).
        assert (R2 : sreach modulus x0 b s') by (eapply sr_step; eauto).
        destruct r as [seg|].
        * assert (S' : witnessed p (returned (s_hist s')) (lk_step p st (Some seg))).
          { rewrite H0. cbn. now apply witnessed_next. }
          unfold after. destruct (lk_step p st (Some seg)) as [st'|[n o|]] eqn:E; cbn; auto.
          exists s', n. split; [auto|]. split; [auto|]. split; [constructor|auto].
        * destruct sincere as (_ & G & _). destruct (G st) as ([n o|] & E); rewrite E; cbn.
          -- exists s', n. split; [auto|]. split; [auto|]. split; [constructor|]. right. exists st, (s_hist s). auto.
          -- split; [auto|]. split; [auto|]. right. exists st, [], (s_hist s). auto.
      + destruct IH as (s & n & A & B & C & D). exists s, n. split; [auto|]. split; [auto|]. split; [|auto].
        eapply ar_step; eauto.
      + destruct IH as (s & n' & A & B & C & D). exists s, n'. split; [auto|]. split; [auto|]. split; [|auto].
        eapply ar_step; [exact C|]. now constructor.
      + destruct IH as (-> & R' & S). cbn. split; [auto|]. split.
        * eapply sr_step; [exact R'|]. now constructor.
        * cbn in S. rewrite (loader_returned _ _ _ _ _ H).
          destruct S as [S|(st & h1 & h2 & S & E & E')]; auto. right.
          destruct (loader_hist _ _ _ _ h H) as (h3 & E3).
          exists st, (h3 ++ h1), h2. split; [auto|]. split; [auto|]. rewrite E3, E'. apply app_assoc.
  Qed.

  (** [advance] leaves what is left of the segments, cut in the same places. *)
  Lemma placed s n a s' : sreach modulus x0 b s -> areach modulus (s_sh s) b n a -> a_pc a = AReady ->
    n <= length (concat (q ++ appended (s_hist s))) ->
    ck_drop n (q ++ appended (s_hist s) ++ appended (a_hist a)) = Some s' -> same_ahead (a_sh a) (a_buf a) s'.
  Proof.
    intros S AR P F D.
    destruct (takes modulus x0 b q version_small start s n a S AR P F) as (q' & A' & C').
    set (Q := q ++ appended (s_hist s) ++ appended (a_hist a)) in *.
    pose proof (ahead_now modulus x0 b q version_small start s S) as N.
    assert (NA : ahead (sh_heap (a_sh a)) (sh_tail (a_sh a)) b Q).
    { unfold Q. rewrite app_assoc. eapply aahead; eauto. }
    assert (NP : a_pc a <> APanicked) by congruence.
    destruct (areach_path modulus _ _ _ _ AR NP) as (ss & PA). unfold node_of in PA. rewrite P in PA.
    pose proof (drop_content _ _ _ D) as DC. exists q'. split; [exact A'|].
    apply tail_same with (Q := Q).
    - apply (ahead_tail (a_sh a) b (a_buf a) Q q' ss); auto. rewrite C'. rewrite skipn_length. lia.
    - eapply drop_tail; eauto.
    - now rewrite C', DC.
  Qed.

  (** An answer is that on what was there and the first of what has come, the
      rest being still there. *)
  Lemma own_answer h r : prim_runs modulus p x0 b h r ->
    match r with
    | Took o x b' => version x < modulus /\ exists add1 add2 s', appended h = add1 ++ add2 /\
        look_parse p (Chunked (q ++ add1)) = Ret (Ok o (Chunked s')) /\ same_ahead x b' (s' ++ add2)
    | Failed e x b' => version x < modulus /\ exists add1 add2 s', appended h = add1 ++ add2 /\
        look_parse p (Chunked (q ++ add1)) = Ret (Err e (Chunked s')) /\ same_ahead x b' (s' ++ add2)
    end.
  Proof.
    intros R. destruct sincere as (M & G & ME). destruct R as [h o a L P|b' s L].
    - destruct (own_reach _ L) as (s & n & S & <- & AR & D).
      pose proof (version_now modulus x0 b q version_small start s S) as V.
      split; [eapply aversion; eauto|]. rewrite appended_app.
      destruct D as [W|(st & h2 & W & E & EH)].
      + pose proof (C56_in_order modulus x0 b q version_small start s S) as (c & I).
        assert (F : n <= length (concat (q ++ appended (s_hist s)))).
        { rewrite <- I, concat_app, app_length. pose proof (M _ _ _ W). lia. }
        assert (F' : n <= length (concat (q ++ appended (s_hist s) ++ appended (a_hist a)))).
        { rewrite app_assoc, concat_app, app_length. lia. }
        destruct (drop_some _ _ F') as (s' & D).
        exists (appended (s_hist s) ++ appended (a_hist a)), [], s'. rewrite !app_nil_r. split; [reflexivity|]. split.
        * unfold look_parse. change (segments (Chunked ?q)) with q.
          rewrite app_assoc, <- I, <- app_assoc, (witnessed_settle p _ _ W), app_assoc, I, <- app_assoc.
          cbn [advance chunked_sequence ck_segs]. now rewrite D.
        * eapply placed; eauto.
      + destruct (C57_end_partial modulus x0 b q version_small start s [] h2 S EH) as (_ & RQ & _).
        destruct (before_look_split h2) as (h3 & E3).
        assert (PA : exists addx, appended (s_hist s) = appended (before_look h2) ++ addx).
        { rewrite EH. cbn [appended]. rewrite (f_equal appended E3), appended_app. eauto. }
        destruct PA as (addx & PA). pose proof (ME _ _ _ _ W E) as F. rewrite RQ in F.
        destruct (drop_some _ _ F) as (s' & D).
        exists (appended (before_look h2)), (addx ++ appended (a_hist a)), s'. split; [now rewrite PA, app_assoc|]. split.
        * unfold look_parse. change (segments (Chunked ?q)) with q. rewrite <- RQ.
          pose proof (witnessed_settle p _ _ W []) as SE. rewrite app_nil_r in SE. rewrite SE. cbn [settle]. rewrite E, RQ.
          cbn [advance chunked_sequence ck_segs]. now rewrite D.
        * eapply placed with (n := n); eauto.
          -- rewrite PA, app_assoc, concat_app, app_length. lia.
          -- rewrite PA. rewrite <- app_assoc, app_assoc. now apply drop_more.
    - destruct (own_reach _ L) as (-> & S & D).
      split; [exact (version_now modulus x0 b q version_small start s S)|].
      pose proof (ahead_now modulus x0 b q version_small start s S) as N.
      destruct D as [W|(st & h1 & h2 & W & E & EH)].
      + pose proof (C56_in_order modulus x0 b q version_small start s S) as (c & I).
        exists (appended (s_hist s)), [], (q ++ appended (s_hist s)). rewrite !app_nil_r. split; [auto|]. split.
        * unfold look_parse. change (segments (Chunked ?q)) with q. rewrite <- I, (witnessed_settle p _ _ W). reflexivity.
        * eexists. split; eauto.
      + destruct (C57_end_partial modulus x0 b q version_small start s h1 h2 S EH) as (_ & RQ & _).
        destruct (before_look_split h2) as (h3 & E3).
        assert (PA : exists add2, appended (s_hist s) = appended (before_look h2) ++ add2).
        { rewrite EH, appended_app. cbn [appended]. rewrite (f_equal appended E3), appended_app, <- app_assoc. eauto. }
        destruct PA as (add2 & PA). exists (appended (before_look h2)), add2, (q ++ appended (before_look h2)).
        split; [auto|]. split.
        * unfold look_parse. change (segments (Chunked ?q)) with q. rewrite <- RQ.
          pose proof (witnessed_settle p _ _ W []) as SE. rewrite app_nil_r in SE. rewrite SE. cbn [settle]. now rewrite E, RQ.
        * eexists. split; [exact N|]. now rewrite PA, app_assoc.
  Qed.

  (** Either nobody told it of the end, and what comes later changes nothing; or
      the source is done by now. *)
  Lemma own_heard h r : prim_runs modulus p x0 b h r ->
    match r with
    | Took o x b' => done_flag x = true \/
        exists s', (forall more, look_parse p (Chunked ((q ++ appended h) ++ more)) = Ret (Ok o (Chunked (s' ++ more)))) /\ same_ahead x b' s'
    | Failed e x b' => done_flag x = true \/
        exists s', (forall more, look_parse p (Chunked ((q ++ appended h) ++ more)) = Ret (Err e (Chunked (s' ++ more)))) /\ same_ahead x b' s'
    end.
  Proof.
    intros R. destruct sincere as (M & G & ME). assert (positive : 0 < modulus) by lia.
    assert (DN : forall s h1 h2, sreach modulus x0 b s -> s_hist s = h1 ++ EReturn None :: h2 -> done_flag (s_sh s) = true).
    { intros s h1 h2 S EH. destruct (C57_end_partial modulus x0 b q version_small start s h1 h2 S EH) as (D & _).
      apply (i_shared _ _ _ _ (sreach_inv modulus _ q positive _ _ _ eq_refl version_small start S)). rewrite EH. apply in_or_app. right. now right. }
    destruct R as [h o a L P|b' s L].
    - destruct (own_reach _ L) as (s & n & S & <- & AR & D).
      destruct D as [W|(st & h2 & W & E & EH)].
      + right. rewrite appended_app. pose proof (C56_in_order modulus x0 b q version_small start s S) as (c & I).
        assert (F : n <= length (concat (q ++ appended (s_hist s)))).
        { rewrite <- I, concat_app, app_length. pose proof (M _ _ _ W). lia. }
        assert (F' : n <= length (concat (q ++ appended (s_hist s) ++ appended (a_hist a)))).
        { rewrite app_assoc, concat_app, app_length. lia. }
        destruct (drop_some _ _ F') as (s' & D). exists s'. split.
        * intros more. unfold look_parse. change (segments (Chunked ?q)) with q.
          assert (SE : settle p (lk_init p) ((q ++ appended (s_hist s) ++ appended (a_hist a)) ++ more) = inr (VTake n o)).
          { rewrite (app_assoc q), <- app_assoc, <- I, <- app_assoc. apply (witnessed_settle p _ _ W). }
          rewrite SE. cbn [advance chunked_sequence ck_segs]. now rewrite (drop_more _ _ _ more D).
        * eapply placed; eauto.
      + left. exact (adone_stays modulus b (s_sh s) n a (DN s [] h2 S EH) AR).
    - destruct (own_reach _ L) as (-> & S & D). destruct D as [W|(st & h1 & h2 & W & E & EH)].
      + right. pose proof (C56_in_order modulus x0 b q version_small start s S) as (c & I).
        exists (q ++ appended (s_hist s)). split.
        * intros more. unfold look_parse. change (segments (Chunked ?q)) with q.
          assert (SE : settle p (lk_init p) ((q ++ appended (s_hist s)) ++ more) = inr VMiss).
          { rewrite <- I, <- app_assoc. apply (witnessed_settle p _ _ W). }
          now rewrite SE.
        * eexists. split; [exact (ahead_now modulus x0 b q version_small start s S)|reflexivity].
      + left. exact (DN s h1 h2 S EH).
  Qed.

  Lemma own_no_panic l : lreach modulus p x0 b l ->
    match l with
    | LLook _ _ s | LMiss _ s => s_pc s <> SPanicked
    | LAdvance _ _ a => a_pc a <> APanicked
    end.
  Proof.
    intros R. assert (W := own_reach _ R). destruct l as [b' st s|h o a|b' s].
    - destruct W as (_ & S & _). eapply C56_no_panic; eauto.
    - clear W. remember (LAdvance h o a) as l eqn:E. revert h o a E.
      induction R as [|l l' R IH St]; intros h o a E; [discriminate|].
      destruct St; try discriminate.
      + unfold after in E. destruct (lk_step p st r) as [?|[n o'|]]; try discriminate. injection E as <- <- <-. discriminate.
      + injection E as <- <- <-. specialize (IH _ _ _ eq_refl). intros F.
        destruct (own_reach _ R) as (s & n & S & <- & A & _).
        pose proof (ahead_now modulus x0 b q version_small start s S) as H1.
        pose proof (version_now modulus x0 b q version_small start s S) as W.
        apply H0. exact (C59_no_panic_partial modulus _ _ _ W H1 n a0 a' A IH H F).
      + injection E as <- <- <-. exact (IH _ _ _ eq_refl).
    - destruct W as (_ & S & _). eapply C56_no_panic; eauto.
  Qed.

  (** Where it is. *)
  Lemma own_waits l : lreach modulus p x0 b l ->
    match l with
    | LLook b' st s => b' = b /\ sreach modulus x0 b s /\ witnessed p (returned (s_hist s)) (inl st)
    | LAdvance h o a => exists s n, sreach modulus x0 b s /\ s_hist s = h /\ areach modulus (s_sh s) b n a
        /\ version (s_sh s) < modulus /\ ahead (sh_heap (s_sh s)) (sh_tail (s_sh s)) b (q ++ appended h)
    | LMiss b' s => b' = b /\ sreach modulus x0 b s
    end.
  Proof.
    intros R. pose proof (own_reach _ R) as W. destruct l as [b' st s|h o a|b' s]; cbn in W.
    - exact W.
    - destruct W as (s & n & S & <- & A & _). exists s, n. repeat (split; [solve [auto]|]).
      split; [eapply version_now; eauto|eapply ahead_now; eauto].
    - destruct W as (-> & S & _). auto.
  Qed.

  (** On a source that is done nothing comes any more, *)
  Lemma own_quiet h r : done_flag x0 = true -> prim_runs modulus p x0 b h r ->
    appended h = [] /\ match r with Took _ x' _ | Failed _ x' _ => done_flag x' = true end.
  Proof.
    intros D R. destruct R as [h o a L P|b' s L].
    - destruct (own_reach _ L) as (s & n & S & <- & AR & _).
      pose proof (done_stays modulus x0 b s D S) as D'.
      pose proof (ahead_now modulus x0 b q version_small start s S) as A'.
      pose proof (version_now modulus x0 b q version_small start s S) as V'.
      rewrite appended_app, (done_appended modulus x0 b q version_small start s D S), (adone_appended modulus x0 b version_small (s_sh s) n a D' V' _ A' AR).
      split; [auto|]. exact (adone_stays modulus b (s_sh s) n a D' AR).
    - destruct (own_reach _ L) as (_ & S & _). split.
      + exact (done_appended modulus x0 b q version_small start s D S).
      + exact (done_stays modulus x0 b s D S).
  Qed.
  (** and it gets to its answer by itself. *)
  Lemma own_ends : done_flag x0 = true -> exists h r, prim_runs modulus p x0 b h r.
  Proof.
    intros D. destruct sincere as (_ & G & _).
    destruct (look_ends modulus p x0 b q version_small start (lk_init p) (sinit x0 b) G D _ (le_n _) (sr_init _ _ _)) as (l & L & P).
    assert (X : forall l1 l2, leads modulus p l1 l2 -> lreach modulus p x0 b l1 -> lreach modulus p x0 b l2).
    { induction 1; auto. intros. apply IHleads. econstructor; eauto. }
    destruct l as [? ? ?|h o a|b' s]; [destruct P| |].
    - destruct P as (s1 & n & S1 & ->).
      destruct (advance_ends modulus p x0 b version_small h o (s_sh s1) n (ainit (s_sh s1) b n) (q ++ appended (s_hist s1))) as (a' & L' & P').
      + exact (done_stays modulus x0 b s1 D S1).
      + exact (version_now modulus x0 b q version_small start s1 S1).
      + exact (ahead_now modulus x0 b q version_small start s1 S1).
      + constructor.
      + discriminate.
      + assert (R : lreach modulus p x0 b (LAdvance h o a')) by (eapply X; [exact L'|]; eapply X; [exact L|]; constructor).
        eexists _, _. exact (pr_took R P').
    - assert (R : lreach modulus p x0 b (LMiss b' s)) by (eapply X; [exact L|constructor]).
      eexists _, _. exact (pr_failed R).
  Qed.
End Prim.

(** ** On segments that are all there, empty ones change nothing *)
Section Same.
  Context {T : Type} (eqb : T -> T -> bool).
  Hypothesis eq_ok : decides_eq eqb.

  Definition same_answer {O E} (c1 c2 : comp (res (chunked T) O E)) : Prop :=
    match c1, c2 with
    | Ret (Ok o1 (Chunked s1)), Ret (Ok o2 (Chunked s2)) => o1 = o2 /\ solid s1 = solid s2
    | Ret (Err e1 (Chunked s1)), Ret (Err e2 (Chunked s2)) => e1 = e2 /\ solid s1 = solid s2
    | Panic, Panic | UB, UB | OutOfFuel, OutOfFuel => True
    | _, _ => False
    end.

  Lemma same_bind {O E O' E'} (c1 c2 : comp (res (chunked T) O E)) (k : res (chunked T) O E -> comp (res (chunked T) O' E')) :
    same_answer c1 c2 ->
    (forall o s1 s2, solid s1 = solid s2 -> same_answer (k (Ok o (Chunked s1))) (k (Ok o (Chunked s2)))) ->
    (forall e s1 s2, solid s1 = solid s2 -> same_answer (k (Err e (Chunked s1))) (k (Err e (Chunked s2)))) ->
    same_answer (r <- c1 ;; k r) (r <- c2 ;; k r).
  Proof.
    intros S KO KE. destruct c1 as [[o1 [s1]|e1 [s1]]| | |], c2 as [[o2 [s2]|e2 [s2]]| | |]; cbn in S |- *; try contradiction; auto.
    - destruct S as (-> & S). auto.
    - destruct S as (-> & S). auto.
  Qed.

  Lemma look_settle {O} (l : @looker T O) q1 q2 : steady l -> solid q1 = solid q2 -> settle l (lk_init l) q1 = settle l (lk_init l) q2.
  Proof.
    intros ST E. rewrite (settle_solid l [] _ q1 ST (witnessed_none l)), (settle_solid l [] _ q2 ST (witnessed_none l)). now rewrite E.
  Qed.
  Lemma look_same_answer {O} (l : @looker T O) q1 q2 : steady l -> solid q1 = solid q2 ->
    same_answer (look_parse l (Chunked q1)) (look_parse l (Chunked q2)).
  Proof.
    intros ST E. unfold look_parse. change (segments (Chunked ?q)) with q. rewrite (look_settle l q1 q2 ST E).
    destruct (settle l (lk_init l) q2) as [st|[n o|]]; cbn; auto.
    destruct (ck_drop n q1) as [s1|] eqn:D1.
    - destruct (drop_solid _ _ _ _ E D1) as (s2 & -> & S2). cbn. auto.
    - destruct (ck_drop n q2) as [s2|] eqn:D2; [|exact Logic.I].
      destruct (drop_solid _ _ _ _ (eq_sym E) D2) as (s1 & D & _). congruence.
  Qed.

  Lemma built_same {O E} (p : lparser T O E) : all_honest p -> forall q1 q2, solid q1 = solid q2 ->
    same_answer (parse (built eqb p) (Chunked q1)) (parse (built eqb p) (Chunked q2)).
  Proof.
    induction p as [|x|pat|O l|O0 E0 O1 E1 p0 IH0 p1 IH1|O E U p IH f|O E U p IH f|O E O' E' from p IH f|T0 T1 U E i0 i1 p IH|O T0 T1 U i0 i1 p IH|O E p IH|O E p IH|O E o0|O E e0|O E O' E' from p IH c IHc]; intros NE q1 q2 Q; cbn [all_honest] in NE.
    - change (same_answer (any_item_parse (Chunked q1)) (any_item_parse (Chunked q2))). rewrite !(any_same).
      now apply (look_same_answer any_looker _ _ any_steady).
    - change (same_answer (the_item_parse eqb x (Chunked q1)) (the_item_parse eqb x (Chunked q2))). rewrite !(the_same eqb x).
      now apply (look_same_answer _ _ _ (the_steady eqb x)).
    - change (let SG := list_segment eqb in same_answer (atom_parse pat (Chunked q1)) (atom_parse pat (Chunked q2))). cbv zeta.
      rewrite !(atom_same eqb 1 (fresh [] 0) (le_n 1) pat). now apply (look_same_answer _ _ _ (atom_steady eqb eq_ok pat NE)).
    - destruct NE as (_ & ST). now apply look_same_answer.
    - destruct NE as (N0 & N1). cbn [built parse Join]. unfold join_parse. apply same_bind; [auto| |cbn; auto].
      intros o s1 s2 S. apply same_bind; cbn; auto.
    - cbn [built parse Map]. unfold map_parse. apply same_bind; cbn; auto.
    - cbn [built parse MapErr]. unfold map_err_parse. apply same_bind; cbn; auto.
    - cbn [built parse AndThen]. unfold and_then_parse. apply same_bind; [auto| |cbn; auto].
      intros o s1 s2 S. destruct (f o); cbn; auto.
    - cbn [built parse Unify]. unfold unify_parse. apply same_bind; cbn; auto.
    - cbn [built parse UnifyErr]. unfold unify_err_parse. apply same_bind; cbn; auto.
    - exact (IH NE q1 q2 Q).
    - exact (IH NE q1 q2 Q).
    - cbn. auto.
    - cbn. auto.
    - destruct NE as (N0 & N1). cbn [built parse closure]. apply same_bind; [auto| |cbn; auto].
      intros o s1 s2 S. now apply IHc.
  Qed.

  Lemma settle_fits_honest {O} (l : @looker T O) q n o : honest l -> settle l (lk_init l) q = inr (VTake n o) -> n <= length (concat q).
  Proof.
    intros (M & G & ME) E.
    assert (X : forall q2 q1 st, witnessed l q1 (inl st) -> settle l st q2 = inr (VTake n o) -> n <= length (concat (q1 ++ q2))).
    { induction q2 as [|s q2 IH]; intros q1 st W S; cbn [settle] in S.
      - rewrite app_nil_r. eauto.
      - pose proof (witnessed_next l q1 st s W) as W'. destruct (lk_step l st (Some s)) as [st'|v].
        + specialize (IH _ _ W' S). now rewrite <- app_assoc in IH.
        + injection S as ->. specialize (M _ _ _ W'). change (q1 ++ s :: q2) with (q1 ++ [s] ++ q2).
          rewrite app_assoc, concat_app, app_length. lia. }
    exact (X q [] _ (witnessed_none l) E).
  Qed.
End Same.

(** ** Parsers built of them *)
Section Run.
  Context {T : Type} (eqb : T -> T -> bool).
  Hypothesis eq_ok : decides_eq eqb.
  Variable modulus : nat.

  Definition own_meaning {O E} (p : lparser T O E) (q : list (list T)) (h : list (@revent T)) (r : @outcome T O E) : Prop :=
    appended h = [] /\
    match r with
    | Took o x b => version x < modulus /\ done_flag x = true /\
        exists s, parse (built eqb p) (Chunked q) = Ret (Ok o (Chunked s)) /\ same_ahead x b s
    | Failed e x b => version x < modulus /\ done_flag x = true /\
        exists s, parse (built eqb p) (Chunked q) = Ret (Err e (Chunked s)) /\ same_ahead x b s
    end.

  Lemma prim_own O (l : @looker T O) x b q h r : honest l -> version x < modulus -> ahead (sh_heap x) (sh_tail x) b q ->
    done_flag x = true -> prim_runs modulus l x b h r -> own_meaning (PLook l) q h r.
  Proof.
    intros HO V A D R. destruct (own_quiet modulus l x b q V A HO h r D R) as (Q & D'). split; [exact Q|].
    pose proof (own_answer modulus l x b q V A HO h r R) as H. rewrite Q in H.
    destruct r as [o x' b'|e x' b']; destruct H as (V' & add1 & add2 & s & EA & P & S);
      symmetry in EA; apply app_eq_nil in EA as (-> & ->); rewrite app_nil_r in P, S; eauto.
  Qed.

  Lemma moves_on {O E} (p : lparser T O E) (r : @outcome T O E) q s : all_honest p -> solid q = solid s ->
    match r with
    | Took o x b => exists s1, parse (built eqb p) (Chunked q) = Ret (Ok o (Chunked s1)) /\ same_ahead x b s1
    | Failed e x b => exists s1, parse (built eqb p) (Chunked q) = Ret (Err e (Chunked s1)) /\ same_ahead x b s1
    end ->
    match r with
    | Took o x b => exists s1, parse (built eqb p) (Chunked s) = Ret (Ok o (Chunked s1)) /\ same_ahead x b s1
    | Failed e x b => exists s1, parse (built eqb p) (Chunked s) = Ret (Err e (Chunked s1)) /\ same_ahead x b s1
    end.
  Proof.
    intros HO S H. pose proof (built_same eqb eq_ok p HO q s S) as SA.
    destruct r as [o x b|e x b]; destruct H as (s1 & P & q1 & A1 & S1); rewrite P in SA;
      destruct (parse (built eqb p) (Chunked s)) as [[o2 [s2]|e2 [s2]]| | |]; cbn in SA; try contradiction;
      destruct SA as (<- & S2); exists s2; (split; [reflexivity|]); exists q1; split; auto; congruence.
  Qed.

  Lemma run_own O E (p : lparser T O E) x b h r : runs eqb modulus p x b h r -> all_honest p ->
    forall q, version x < modulus -> ahead (sh_heap x) (sh_tail x) b q -> done_flag x = true -> own_meaning p q h r.
  Proof.
    intros R. induction R as [x b h r R|y x b h r R|pat x b h r R|O l x b h r R
      |O0 E0 O1 E1 p0 p1 x b h0 o0 x0 b0 h1 o1 x1 b1 R0 IH0 R1 IH1
      |O0 E0 O1 E1 p0 p1 x b h e x0 b0 R0 IH0
      |O0 E0 O1 E1 p0 p1 x b h0 o0 x0 b0 h1 e x1 b1 R0 IH0 R1 IH1
      |O E U p f x b h o x0 b0 R IH|O E U p f x b h e x0 b0 R IH
      |O E U p f x b h o x0 b0 R IH|O E U p f x b h e x0 b0 R IH
      |O E O' E' from p f x b h o o' x0 b0 R IH F|O E O' E' from p f x b h o e x0 b0 R IH F
      |O E O' E' from p f x b h e x0 b0 R IH
      |T0 T1 U E i0 i1 p x b h o x0 b0 R IH|T0 T1 U E i0 i1 p x b h e x0 b0 R IH
      |O T0 T1 U i0 i1 p x b h o x0 b0 R IH|O T0 T1 U i0 i1 p x b h e x0 b0 R IH
      |O E p x b h r R IH|O E p x b h r R IH|O E o x b|O E e x b
      |O E O' E' from p c x b h0 o x0 b0 h1 r R0 IH0 R1 IH1|O E O' E' from p c x b h e x0 b0 R IH]; intros NE q V A D.
    - pose proof (prim_own _ _ _ _ _ _ _ (modest_honest _ any_modest) V A D R) as H. unfold own_meaning in *.
      change (parse (built eqb PAny) (Chunked q)) with (any_item_parse (Chunked q)). rewrite (any_same q). exact H.
    - pose proof (prim_own _ _ _ _ _ _ _ (modest_honest _ (the_modest eqb eq_ok y)) V A D R) as H. unfold own_meaning in *.
      change (parse (built eqb (PThe y)) (Chunked q)) with (the_item_parse eqb y (Chunked q)). rewrite (the_same eqb y q). exact H.
    - pose proof (prim_own _ _ _ _ _ _ _ (modest_honest _ (atom_modest eqb eq_ok pat)) V A D R) as H. unfold own_meaning in *.
      change (parse (built eqb (PAtom pat)) (Chunked q)) with (atom_parse (SG := list_segment eqb) pat (Chunked q)).
      rewrite (atom_same eqb _ _ V pat q). exact H.
    - destruct NE as (HO & _). exact (prim_own _ _ _ _ _ _ _ HO V A D R).
    - destruct NE as (N0 & N1). destruct (IH0 N0 q V A D) as (Q0 & V0 & D0 & s0 & P0 & q0 & A0 & S0).
      destruct (IH1 N1 q0 V0 A0 D0) as (Q1 & V1 & D1 & M1). split; [now rewrite appended_app, Q0, Q1|]. split; [auto|]. split; [auto|].
      destruct (moves_on p1 (Took o1 x1 b1) q0 s0 N1 S0 M1) as (s1 & P1 & SA).
      exists s1. split; [|auto]. cbn [built parse Join]. unfold join_parse. rewrite P0. cbn [bind]. now rewrite P1.
    - destruct NE as (N0 & N1). destruct (IH0 N0 q V A D) as (Q0 & V0 & D0 & s0 & P0 & SA).
      split; [auto|]. split; [auto|]. split; [auto|]. exists s0. split; [|auto]. cbn [built parse Join]. unfold join_parse. now rewrite P0.
    - destruct NE as (N0 & N1). destruct (IH0 N0 q V A D) as (Q0 & V0 & D0 & s0 & P0 & q0 & A0 & S0).
      destruct (IH1 N1 q0 V0 A0 D0) as (Q1 & V1 & D1 & M1). split; [now rewrite appended_app, Q0, Q1|]. split; [auto|]. split; [auto|].
      destruct (moves_on p1 (Failed e x1 b1) q0 s0 N1 S0 M1) as (s1 & P1 & SA).
      exists s1. split; [|auto]. cbn [built parse Join]. unfold join_parse. rewrite P0. cbn [bind]. now rewrite P1.
    - destruct (IH NE q V A D) as (Q0 & V0 & D0 & s0 & P0 & SA). split; [auto|]. split; [auto|]. split; [auto|]. exists s0. split; [|auto].
      cbn [built parse Map]. unfold map_parse. now rewrite P0.
    - destruct (IH NE q V A D) as (Q0 & V0 & D0 & s0 & P0 & SA). split; [auto|]. split; [auto|]. split; [auto|]. exists s0. split; [|auto].
      cbn [built parse Map]. unfold map_parse. now rewrite P0.
    - destruct (IH NE q V A D) as (Q0 & V0 & D0 & s0 & P0 & SA). split; [auto|]. split; [auto|]. split; [auto|]. exists s0. split; [|auto].
      cbn [built parse MapErr]. unfold map_err_parse. now rewrite P0.
    - destruct (IH NE q V A D) as (Q0 & V0 & D0 & s0 & P0 & SA). split; [auto|]. split; [auto|]. split; [auto|]. exists s0. split; [|auto].
      cbn [built parse MapErr]. unfold map_err_parse. now rewrite P0.
    - destruct (IH NE q V A D) as (Q0 & V0 & D0 & s0 & P0 & SA). split; [auto|]. split; [auto|]. split; [auto|]. exists s0. split; [|auto].
      cbn [built parse AndThen]. unfold and_then_parse. rewrite P0. cbn [bind]. now rewrite F.
    - destruct (IH NE q V A D) as (Q0 & V0 & D0 & s0 & P0 & SA). split; [auto|]. split; [auto|]. split; [auto|]. exists s0. split; [|auto].
      cbn [built parse AndThen]. unfold and_then_parse. rewrite P0. cbn [bind]. now rewrite F.
    - destruct (IH NE q V A D) as (Q0 & V0 & D0 & s0 & P0 & SA). split; [auto|]. split; [auto|]. split; [auto|]. exists s0. split; [|auto].
      cbn [built parse AndThen]. unfold and_then_parse. now rewrite P0.
    - destruct (IH NE q V A D) as (Q0 & V0 & D0 & s0 & P0 & SA). split; [auto|]. split; [auto|]. split; [auto|]. exists s0. split; [|auto].
      cbn [built parse Unify]. unfold unify_parse. now rewrite P0.
    - destruct (IH NE q V A D) as (Q0 & V0 & D0 & s0 & P0 & SA). split; [auto|]. split; [auto|]. split; [auto|]. exists s0. split; [|auto].
      cbn [built parse Unify]. unfold unify_parse. now rewrite P0.
    - destruct (IH NE q V A D) as (Q0 & V0 & D0 & s0 & P0 & SA). split; [auto|]. split; [auto|]. split; [auto|]. exists s0. split; [|auto].
      cbn [built parse UnifyErr]. unfold unify_err_parse. now rewrite P0.
    - destruct (IH NE q V A D) as (Q0 & V0 & D0 & s0 & P0 & SA). split; [auto|]. split; [auto|]. split; [auto|]. exists s0. split; [|auto].
      cbn [built parse UnifyErr]. unfold unify_err_parse. now rewrite P0.
    - exact (IH NE q V A D).
    - exact (IH NE q V A D).
    - split; [reflexivity|]. split; [auto|]. split; [auto|]. exists q. split; [reflexivity|]. exists q. auto.
    - split; [reflexivity|]. split; [auto|]. split; [auto|]. exists q. split; [reflexivity|]. exists q. auto.
    - destruct NE as (N0 & N1). destruct (IH0 N0 q V A D) as (Q0 & V0 & D0 & s0 & P0 & q0 & A0 & S0).
      destruct (IH1 (N1 o) q0 V0 A0 D0) as (Q1 & M1). split; [now rewrite appended_app, Q0, Q1|].
      pose proof (moves_on (c o) r q0 s0 (N1 o) S0) as MV.
      destruct r as [o1 x1 b1|e x1 b1]; destruct M1 as (V1 & D1 & M1); destruct (MV M1) as (s1 & P1 & SA);
        (split; [auto|]; split; [auto|]; exists s1; split; [|auto]; cbn [built parse closure]; rewrite P0; exact P1).
    - destruct NE as (N0 & N1). destruct (IH N0 q V A D) as (Q0 & V0 & D0 & s0 & P0 & SA).
      split; [auto|]. split; [auto|]. split; [auto|]. exists s0. split; [|auto]. cbn [built parse closure]. now rewrite P0.
  Qed.

  (** Whatever the loader does, the sequence is whole when it has answered. *)
  Definition placed_at {O E} (r : @outcome T O E) : Prop :=
    match r with Took _ x b | Failed _ x b => version x < modulus /\ exists q, ahead (sh_heap x) (sh_tail x) b q end.
  Lemma prim_placed O (l : @looker T O) x b q h r : honest l -> version x < modulus -> ahead (sh_heap x) (sh_tail x) b q ->
    prim_runs modulus l x b h r -> placed_at r.
  Proof.
    intros HO V A R. pose proof (own_answer modulus l x b q V A HO h r R) as H.
    destruct r as [o x' b'|e x' b']; destruct H as (V' & a1 & a2 & s & _ & _ & q' & A' & _); cbn; eauto.
  Qed.
  Lemma run_placed O E (p : lparser T O E) x b h r : runs eqb modulus p x b h r -> all_honest p ->
    forall q, version x < modulus -> ahead (sh_heap x) (sh_tail x) b q -> placed_at r.
  Proof.
    intros R. induction R; intros NE q V A; cbn in NE; try (exact (IHR NE q V A)).
    - eapply prim_placed; eauto. apply modest_honest, any_modest.
    - eapply prim_placed; eauto. apply modest_honest. now apply the_modest.
    - eapply prim_placed; eauto. apply modest_honest. now apply atom_modest.
    - destruct NE as (M & _). eapply prim_placed; eauto.
    - destruct NE as (N0 & N1). destruct (IHR1 N0 q V A) as (V1 & q1 & A1). exact (IHR2 N1 q1 V1 A1).
    - destruct NE as (N0 & N1). exact (IHR N0 q V A).
    - destruct NE as (N0 & N1). destruct (IHR1 N0 q V A) as (V1 & q1 & A1). exact (IHR2 N1 q1 V1 A1).
    - cbn. eauto.
    - cbn. eauto.
    - destruct NE as (N0 & N1). destruct (IHR1 N0 q V A) as (V1 & q1 & A1). exact (IHR2 (N1 o) q1 V1 A1).
    - destruct NE as (N0 & N1). exact (IHR N0 q V A).
  Qed.
  Lemma starts_placed O E (p : lparser T O E) x b x' b' : starts eqb modulus p x b x' b' -> all_honest p ->
    forall q, version x < modulus -> ahead (sh_heap x) (sh_tail x) b q ->
    version x' < modulus /\ exists q', ahead (sh_heap x') (sh_tail x') b' q'.
  Proof.
    intros S. induction S; intros NE q V A; cbn in NE; eauto; destruct NE as (N0 & N1); eauto.
    - destruct (run_placed _ _ _ _ _ _ _ H N0 q V A) as (V1 & q1 & A1). eauto.
    - destruct (run_placed _ _ _ _ _ _ _ H N0 q V A) as (V1 & q1 & A1). eauto.
  Qed.
End Run.

Lemma run_look_inv {T} (eqb : T -> T -> bool) modulus {O} (l : @looker T O) x b h r :
  runs eqb modulus (PLook l) x b h r -> prim_runs modulus l x b h r.
Proof.
  assert (X : forall O E (p : lparser T O E) x b h r, runs eqb modulus p x b h r ->
    match p in lparser _ O E return @shared T -> gbuffer -> list (@revent T) -> @outcome T O E -> Prop with
    | PLook l => fun x b h r => prim_runs modulus l x b h r
    | _ => fun _ _ _ _ => True
    end x b h r) by (destruct 1; cbn; auto).
  intros R. exact (X _ _ _ _ _ _ _ R).
Qed.
