(** * L_Resume: exactly when a CRLF meter can be resumed (C37). *)
From Verif Require Import L_Metrics.
Open Scope N_scope.
Open Scope nat_scope.

Notation meter := (LineColumnMeter CRLF).
Notation R m cs := (fold_left (@meter_step CRLF _) cs m).
Notation Ini := (MkCRLF StInitial).
Notation Cr := (MkCRLF StCR).
Notation ln m := (line (location_ m)).
Notation col m := (column (location_ m)).
Notation tot m := (total_count (location_ m)).

Lemma R_snoc (m : meter) p c : R m (p ++ [c]) = meter_step (R m p) c.
Proof. now rewrite fold_left_app. Qed.

Lemma step_ini t l c f x :
  meter_step (MkMeter (MkLineColumn t l c) f Ini) x
  = MkMeter (MkLineColumn (t + 1) (if f then l + 1 else l) (if f then 1 else c + 1)) false (if N.eqb x 13 then Cr else Ini).
Proof. unfold meter_step. cbn -[N.eqb]. unfold chr_cr. destruct f, (N.eqb x 13); cbn; rewrite ?Nat.add_0_l; reflexivity. Qed.

Lemma step_cr t l c f x :
  meter_step (MkMeter (MkLineColumn t l c) f Cr) x
  = MkMeter (MkLineColumn (t + 1) (if f then l + 1 else l) (if f then 1 else c + 1)) (N.eqb x 10) Ini.
Proof. unfold meter_step. cbn -[N.eqb]. unfold chr_lf. destruct f, (N.eqb x 10); cbn; rewrite ?Nat.add_0_l; reflexivity. Qed.

(** Meters in the same state stay in the same state. *)
Lemma lock (m1 m2 : meter) b :
  state m1 = state m2 -> next_is_new_line m1 = next_is_new_line m2 ->
  state (R m1 b) = state (R m2 b) /\
  next_is_new_line (R m1 b) = next_is_new_line (R m2 b) /\
  ln (R m1 b) + ln m2 = ln (R m2 b) + ln m1 /\
  tot (R m1 b) + tot m2 = tot (R m2 b) + tot m1 /\
  (col (R m1 b) = col (R m2 b) <->
   col m1 = col m2 \/ exists p x q, b = p ++ x :: q /\ next_is_new_line (R m1 p) = true).
Proof.
  intros Hs Hf. induction b as [|y b IH] using rev_ind.
  - cbn. repeat split; auto; try lia. intros [H|[p [x [q [H _]]]]]; [exact H|now destruct p].
  - rewrite !R_snoc. destruct IH as [I1 [I2 [I3 [I4 I5]]]].
    assert (X : (exists p x q, b ++ [y] = p ++ x :: q /\ next_is_new_line (R m1 p) = true) <->
                next_is_new_line (R m1 b) = true \/
                exists p x q, b = p ++ x :: q /\ next_is_new_line (R m1 p) = true).
    { split.
      - intros [p [x [q [E H]]]]. destruct (snoc_case q) as [->|[q' [z ->]]].
        + apply app_inj_tail in E as [-> _]. now left.
        + right. exists p, x, q'. split; [|exact H]. rewrite app_comm_cons, app_assoc in E. now apply app_inj_tail in E as [-> _].
      - intros [H|[p [x [q [-> H]]]]].
        + exists b, y, []. auto.
        + exists p, x, (q ++ [y]). split; [|exact H]. now rewrite <- app_assoc. }
    rewrite X. clear X.
    destruct (R m1 b) as [[t1 l1 c1] f1 [s1]], (R m2 b) as [[t2 l2 c2] f2 [s2]].
    cbn [state next_is_new_line location_ line column total_count] in *. injection I1 as ->. subst f2.
    destruct s2; rewrite ?step_ini, ?step_cr; cbn [state next_is_new_line location_ line column total_count];
      (split; [reflexivity|]); (split; [reflexivity|]); (split; [destruct f1; lia|]); (split; [lia|]);
      (destruct f1; [split; auto|]); rewrite Nat.add_cancel_r, I5; intuition discriminate.
Qed.

(** The state and the flag depend on the text only. *)
Lemma state_at (m : meter) p :
  state m = Ini -> state (R m p) = MkCRLF (if Nat.even (trailing 13 p) then StInitial else StCR).
Proof.
  intros Hm. induction p as [|c p IH] using rev_ind; [exact Hm|].
  rewrite R_snoc, trailing_snoc. destruct (R m p) as [[t l k] f s]. cbn [state] in IH. subst s.
  destruct (Nat.even (trailing 13 p)) eqn:E; rewrite ?step_ini, ?step_cr; cbn [state].
  - destruct (N.eqb c 13); [|reflexivity]. now rewrite Nat.even_succ, <- Nat.negb_even, E.
  - destruct (N.eqb c 13); [|reflexivity]. now rewrite Nat.even_succ, <- Nat.negb_even, E.
Qed.

Lemma flag_at (m : meter) p :
  state m = Ini -> next_is_new_line m = false ->
  (next_is_new_line (R m p) = true <-> exists p0, p = p0 ++ [10%N] /\ Nat.odd (trailing 13 p0) = true).
Proof.
  intros Hm Hf. destruct (snoc_case p) as [->|[p0 [c ->]]].
  - cbn. rewrite Hf. split; [discriminate|]. intros [p0 [E _]]. now destruct p0.
  - rewrite R_snoc. pose proof (state_at m p0 Hm) as Hs. destruct (R m p0) as [[t l k] f s]. cbn [state] in Hs. subst s.
    assert (X : (exists p1, p0 ++ [c] = p1 ++ [10%N] /\ Nat.odd (trailing 13 p1) = true) <-> c = 10%N /\ Nat.odd (trailing 13 p0) = true).
    { split.
      - intros [p1 [E H]]. apply app_inj_tail in E as [-> ->]. auto.
      - intros [-> H]. eauto. }
    rewrite X. unfold Nat.odd. destruct (Nat.even (trailing 13 p0)); rewrite ?step_ini, ?step_cr; cbn [next_is_new_line].
    + split; [discriminate|]. intros [_ H]. discriminate H.
    + rewrite N.eqb_eq. intuition.
Qed.

Lemma restart_inside (m : meter) b :
  state m = Ini -> next_is_new_line m = false ->
  ((exists p x q, b = p ++ x :: q /\ next_is_new_line (R m p) = true) <-> crlf_inside b).
Proof.
  intros Hm Hf. split.
  - intros [p [x [q [-> H]]]]. apply (flag_at m p Hm Hf) in H as [p0 [-> H]].
    exists p0, (x :: q). split; [now rewrite <- app_assoc|]. split; [discriminate|exact H].
  - intros [p [q [-> [Hq H]]]]. destruct q as [|x q]; [congruence|]. exists (p ++ [10%N]), x, q.
    split; [now rewrite <- app_assoc|]. apply (flag_at m _ Hm Hf). eauto.
Qed.

Lemma line_apart (C F : meter) b :
  state C = state F -> next_is_new_line C = next_is_new_line F -> ln C <> ln F ->
  location_ (R F b) <> location_ (R C b).
Proof. intros H1 H2 H3 E. destruct (lock C F b H1 H2) as [_ [_ [H4 _]]]. rewrite E in H4. lia. Qed.

Lemma realigned_10 b : realigned (10%N :: b) <-> crlf_inside b.
Proof.
  split.
  - intros [[|k] [b' [E H]]]; cbn in E; [injection E as ->; exact H|]. discriminate E.
  - intros H. exists 0, b. auto.
Qed.
Lemma realigned_13_13 b : realigned (13%N :: 13%N :: b) <-> realigned b.
Proof.
  split.
  - intros [[|k] [b' [E H]]]; [discriminate E|].
    replace (2 * S k) with (S (S (2 * k))) in E by lia. cbn [repeat app] in E. injection E as E. exists k, b'. auto.
  - intros [k [b' [-> H]]]. exists (S k), b'. replace (2 * S k) with (S (S (2 * k))) by lia. auto.
Qed.
Lemma realigned_no x b : x <> 10%N -> x <> 13%N -> ~ realigned (x :: b).
Proof.
  intros H1 H2 [[|k] [b' [E H]]]; cbn in E; [injection E as E; congruence|].
  injection E as E; congruence.
Qed.
Lemma realigned_13_no x b : x <> 13%N -> ~ realigned (13%N :: x :: b).
Proof.
  intros H1 [[|k] [b' [E H]]]; [discriminate E|].
  replace (2 * S k) with (S (S (2 * k))) in E by lia. cbn [repeat app] in E. injection E as E; congruence.
Qed.
Lemma realigned_nil : ~ realigned [].
Proof. intros [[|k] [b' [E _]]]; discriminate E. Qed.
Lemma realigned_13 : ~ realigned [13%N].
Proof. intros [[|k] [b' [E _]]]; [discriminate E|]. replace (2 * S k) with (S (S (2 * k))) in E by lia. discriminate E. Qed.

(** [C] has just seen a CR; [F] is in its initial state and one line ahead, or
    about to be. *)
Lemma after_cr n : forall b t lC cC cF f,
  length b <= n -> (f = false \/ b <> []) ->
  (location_ (R (MkMeter (MkLineColumn t (if f then lC else lC + 1) cF) f Ini) b)
   = location_ (R (MkMeter (MkLineColumn t lC cC) false Cr) b)
   <-> realigned b).
Proof.
  induction n as [|n IH]; intros b t lC cC cF f Hn Hb.
  - destruct b; [|cbn in Hn; lia]. destruct Hb as [->|Hb]; [|congruence]. cbn.
    split; [intros E; injection E; lia|]. intros H. destruct (realigned_nil H).
  - destruct b as [|x b].
    { destruct Hb as [->|Hb]; [|congruence]. cbn.
      split; [intros E; injection E; lia|]. intros H. destruct (realigned_nil H). }
    cbn [fold_left]. rewrite step_ini, step_cr. cbn [length] in Hn.
    replace (if f then (if f then lC else lC + 1) + 1 else if f then lC else lC + 1) with (lC + 1) by (destruct f; reflexivity).
    set (cF' := if f then 1 else cF + 1). assert (HcF : 1 <= cF') by (unfold cF'; destruct f; lia). clearbody cF'. clear cF f Hb.
    destruct (N.eqb_spec x 10) as [->|H10].
    + change (N.eqb 10 13) with false. cbn iota. rewrite realigned_10.
      destruct b as [|y b].
      { cbn. split; [intros E; injection E; lia|]. intros [p [q [E [Hq _]]]]. destruct p; discriminate E. }
      rewrite <- (restart_inside (MkMeter (MkLineColumn (t + 1) (lC + 1) cF') false Ini) (y :: b)) by reflexivity.
      cbn [fold_left]. rewrite !step_ini.
      set (F2 := MkMeter (MkLineColumn (t + 1 + 1) (lC + 1) (cF' + 1)) false (if N.eqb y 13 then Cr else Ini)).
      set (C2 := MkMeter (MkLineColumn (t + 1 + 1) (lC + 1) 1) false (if N.eqb y 13 then Cr else Ini)).
      destruct (lock F2 C2 b eq_refl eq_refl) as [_ [_ [L1 [L2 L3]]]]. cbn [F2 C2 location_ line column total_count] in L1, L2, L3.
      fold F2 C2 in L1, L2, L3.
      assert (X : (exists p x q, y :: b = p ++ x :: q /\
                    next_is_new_line (R (MkMeter (MkLineColumn (t + 1) (lC + 1) cF') false Ini) p) = true)
                  <-> exists p x q, b = p ++ x :: q /\ next_is_new_line (R F2 p) = true).
      { split.
        - intros [[|z p] [x [q [E H]]]]; [discriminate H|]. injection E as -> ->. cbn [fold_left] in H. rewrite step_ini in H.
          exists p, x, q. auto.
        - intros [p [x [q [-> H]]]]. exists (y :: p), x, q. split; [reflexivity|]. cbn [fold_left]. rewrite step_ini. exact H. }
      rewrite X. clear X.
      split.
      * intros E. rewrite E in L3. destruct (proj1 L3 eq_refl) as [E1|E1]; [lia|exact E1].
      * intros E. pose proof (proj2 L3 (or_intror E)) as E3.
        destruct (location_ (R F2 b)) as [t1 l1 c1], (location_ (R C2 b)) as [t2 l2 c2].
        cbn [line column total_count] in L1, L2, E3. f_equal; lia.
    + destruct (N.eqb_spec x 13) as [->|H13].
      * destruct b as [|y b].
        { cbn. split; [intros E; injection E; lia|]. intros H. destruct (realigned_13 H). }
        cbn [fold_left]. rewrite step_ini, step_cr. cbn iota. cbn [length] in Hn.
        destruct (N.eqb_spec y 13) as [->|Hy].
        { rewrite realigned_13_13. change (N.eqb 13 10) with false.
          exact (IH b (t + 1 + 1) lC (cC + 1 + 1) (cF' + 1) false ltac:(lia) (or_introl eq_refl)). }
        split; [|intros H; destruct (realigned_13_no y b Hy H)]. intros E. exfalso. revert E.
        destruct (N.eqb_spec y 10) as [->|Hy'].
        { destruct b as [|z b]; [cbn; intros E; injection E; lia|]. cbn [fold_left]. rewrite !step_ini.
          apply line_apart; [reflexivity|reflexivity|cbn; lia]. }
        apply line_apart; [reflexivity|reflexivity|cbn; lia].
      * split; [|intros H; destruct (realigned_no x b H10 H13 H)]. intros E. exfalso. revert E.
        apply line_apart; [reflexivity|reflexivity|cbn; lia].
Qed.

Lemma crlf_resume_iff a b :
  metrics (linecolumn_advance (EOL := CRLF) (linecolumnmeter_new (metrics (crlf_run a))) (Str b)) = metrics (crlf_run (a ++ b))
  <-> b = [] \/ a = [] \/ (exists p, a = p ++ [10]%N /\ Nat.odd (trailing 13 p) = true) \/
      (Nat.odd (trailing 13 a) = true /\ realigned b).
Proof.
  destruct b as [|x b]; [rewrite app_nil_r; cbn; tauto|].
  destruct a as [|y a0] eqn:Ea; [cbn; tauto|]. rewrite <- Ea. assert (Hne : a <> []) by (subst; discriminate). clear Ea y a0.
  destruct (snoc_case a) as [->|[p [c ->]]]; [congruence|].
  assert (Hrun : forall u, crlf_run u = R (linecolumnmeter_default (EOL := CRLF)) u) by reflexivity.
  assert (Hst : state (crlf_run p) = MkCRLF (if Nat.even (trailing 13 p) then StInitial else StCR)).
  { destruct (crlf_shape p) as [_ [_ [_ [H _]]]]. exact H. }
  replace (crlf_run ((p ++ [c]) ++ x :: b)) with (R (crlf_run (p ++ [c])) (x :: b)) by (cbn; now rewrite !fold_left_app).
  change (linecolumn_advance (linecolumnmeter_new (metrics (crlf_run (p ++ [c])))) (Str (x :: b)))
    with (R (MkMeter (location_ (crlf_run (p ++ [c]))) true Ini) (x :: b)).
  rewrite (Hrun (p ++ [c])), R_snoc, <- Hrun. unfold metrics.
  destruct (crlf_run p) as [[t l k] f s]. cbn [state] in Hst. subst s.
  rewrite trailing_snoc.
  assert (Y : (exists p1, p ++ [c] = p1 ++ [10%N] /\ Nat.odd (trailing 13 p1) = true) <-> c = 10%N /\ Nat.odd (trailing 13 p) = true).
  { split.
    - intros [p1 [E H]]. apply app_inj_tail in E as [-> ->]. auto.
    - intros [-> H]. eauto. }
  rewrite Y. clear Y. unfold Nat.odd.
  assert (NE : forall u : list char, ~ (u ++ [c] = [])) by (intros [|? ?]; discriminate).
  destruct (Nat.even (trailing 13 p)) eqn:Ev.
  - rewrite step_ini. cbn [location_]. destruct (N.eqb_spec c 13) as [->|Hc].
    + rewrite Nat.even_succ, <- Nat.negb_even, Ev. cbn [negb].
      rewrite (after_cr (length (x :: b)) (x :: b) (t + 1) (if f then l + 1 else l) _ _ true) by (auto; right; discriminate).
      split; [auto|]. intros [H|[H|[[H _]|[_ H]]]]; auto; try discriminate. destruct (NE p H).
    + split.
      * cbn [fold_left]. rewrite !step_ini. intros E. exfalso. revert E. apply line_apart; [reflexivity|reflexivity|cbn; lia].
      * intros [H|[H|[[_ H]|[H _]]]]; try discriminate. destruct (NE p H).
  - rewrite step_cr. cbn [location_]. destruct (N.eqb_spec c 10) as [->|Hc].
    + split; auto.
    + split.
      * cbn [fold_left]. rewrite !step_ini. intros E. exfalso. revert E. apply line_apart; [reflexivity|reflexivity|cbn; lia].
      * intros [H|[H|[[H _]|[H _]]]]; try discriminate; try congruence; try (destruct (NE p H)).
        destruct (N.eqb c 13); [|discriminate H]. rewrite Nat.even_succ, <- Nat.negb_even, Ev in H. discriminate H.
Qed.
