(** * L_Lang: lemmas for S_Lang. *)
From Verif Require Export S_Lang L_Cost.

Section Lang.
  Context {T : Type} (rules : nat -> gexp T).
  #[local] Hint Constructors derives peg : core.

  (** What a parser reads is a word. *)
  Lemma peg_derives e l o : peg rules e l o -> forall t r, o = PSucc t r -> exists w, l = w ++ r /\ derives rules e w t.
  Proof.
    induction 1; intros t' r' E; try discriminate; try (injection E as <- <-); subst; auto.
    - exists [x]. auto.
    - exists [x]. auto.
    - exists p. auto.
    - destruct (IHpeg1 _ _ eq_refl) as (v & -> & D). destruct (IHpeg2 _ _ eq_refl) as (w & -> & D').
      exists (v ++ w). rewrite app_assoc. auto.
    - destruct (IHpeg _ _ eq_refl) as (v & -> & D). eauto.
    - destruct (IHpeg2 _ _ eq_refl) as (v & -> & D). eauto.
    - destruct (IHpeg _ _ eq_refl) as (v & -> & D). eauto.
    - exists []. auto.
    - exists []. auto.
    - destruct (IHpeg1 _ _ eq_refl) as (v & -> & D). destruct (IHpeg2 _ _ eq_refl) as (w & -> & D').
      exists (v ++ w). rewrite app_assoc. auto.
    - destruct (IHpeg _ _ eq_refl) as (v & -> & D). eauto.
    - destruct (IHpeg _ _ eq_refl) as (v & -> & D). eauto.
  Qed.

  Context (eqb : T -> T -> bool) (eqb_ok : decides_eq eqb) (null gentle : nat -> bool) (first follow : nat -> T -> bool).
  Context (rank : nat -> nat) (n : nat) (ok : predictive rules eqb null gentle first follow rank n).
  Notation may_be_empty := (may_be_empty null).
  Notation starts := (starts eqb null first).
  Notation soft := (soft null gentle).
  Notation one_ahead := (one_ahead eqb null gentle first follow).

  Lemma eqb_self x : eqb x x = true.
  Proof. now apply eqb_ok. Qed.

  (** The tables describe the words. *)
  Lemma derives_starts e w t : derives rules e w t -> uses n e ->
    match w with [] => may_be_empty e = true | x :: _ => starts e x = true end.
  Proof.
    induction 1 as [x|x|p|a b v w s t D1 IHderives1 D2 IHderives2|a b w t D IHderives|a b w t D IHderives|a w t D IHderives|a|a|a v w t ts D1 IHderives1 D2 IHderives2|a w t D IHderives|i w t D IHderives]; cbn; intros Us; auto using eqb_self.
    - destruct p; auto using eqb_self.
    - destruct Us as (Ua & Ub). specialize (IHderives1 Ua). specialize (IHderives2 Ub).
      destruct v; cbn; [|now rewrite IHderives1]. rewrite IHderives1. destruct w; cbn; auto. rewrite IHderives2.
      now rewrite Bool.orb_true_r.
    - destruct Us as (Ua & Ub). specialize (IHderives Ua). destruct w; now rewrite IHderives.
    - destruct Us as (Ua & Ub). specialize (IHderives Ub). destruct w; rewrite IHderives; now rewrite Bool.orb_true_r.
    - specialize (IHderives Us). destruct w; auto.
    - specialize (IHderives1 Us). destruct v; cbn; auto. now destruct w; auto.
    - exact (IHderives Us).
    - destruct (ok i) as (Ui & Nu & Fi & _); auto. specialize (IHderives Ui). destruct w; [now rewrite Nu|now rewrite Fi].
  Qed.
  Lemma follows e w t r after : derives rules e w t -> uses n e -> admits after r ->
    admits (then_after eqb null first e after) (w ++ r).
  Proof.
    intros D Us A. pose proof (derives_starts e w t D Us) as X. destruct w as [|x w]; cbn in *.
    - destruct r; cbn; auto. unfold then_after. cbn in A. now rewrite X, A, Bool.orb_true_r.
    - unfold then_after. now rewrite X.
  Qed.

  Lemma ahead_repeats e : forall after, one_ahead e after -> repeats_something null e = true.
  Proof.
    induction e; cbn; intros after A; auto.
    - destruct A as (A & B). now rewrite (IHe1 _ A), (IHe2 _ B).
    - destruct A as (A & B & _). now rewrite (IHe1 _ A), (IHe2 _ B).
    - destruct A as (A & _). eauto.
    - destruct A as (A & _ & N0 & _). rewrite N0. cbn. eauto.
    - eauto.
  Qed.

  (** Nothing but what it starts with makes an expression read. *)
  Lemma stands k : forall e l, called_first null rank e <= k -> uses n e -> repeats_something null e = true -> soft e = true ->
    (forall x l', l = x :: l' -> starts e x = false) ->
    if may_be_empty e then exists t, peg rules e l (PSucc t l) else peg rules e l PFail.
  Proof.
    induction k as [|k IH].
    all: induction e as [|y|p|a IHa b IHb|a IHa b IHb|a IHa|a IHa|a IHa|i]; cbn; intros l C Us RS SF N0.
    all: try (apply Bool.andb_true_iff in RS as (RS & RS')).
    all: try (apply Bool.andb_true_iff in SF as (SF & SF')).
    (* items *)
    1, 10: destruct l as [|x l]; [constructor|specialize (N0 x l eq_refl); discriminate].
    1, 9: constructor; intros l' ->; specialize (N0 y l' eq_refl); now rewrite eqb_self in N0.
    1, 8: destruct p as [|y p]; [exists TUnit; now apply (pg_atom rules []%list)|];
      constructor; intros l' ->; specialize (N0 y (p ++ l')%list eq_refl); now rewrite eqb_self in N0.
    (* join *)
    1, 7: destruct Us as (Ua & Ub); assert (Na : forall x l', l = x :: l' -> starts a x = false)
        by (intros x l' E; specialize (N0 x l' E); now apply Bool.orb_false_iff in N0 as (N0 & _));
      specialize (IHa l ltac:(lia) Ua RS SF Na); destruct (may_be_empty a) eqn:Ea; cbn in *; [|now apply pg_join_fail1];
      specialize (IHb l ltac:(lia) Ub RS' SF' ltac:(intros x l' E; specialize (N0 x l' E); now apply Bool.orb_false_iff in N0 as (_ & N0)));
      destruct IHa as (t & P); destruct (may_be_empty b); cbn; [destruct IHb as (t' & P')|]; eauto.
    (* or *)
    1, 6: destruct Us as (Ua & Ub);
      specialize (IHa l ltac:(lia) Ua RS SF ltac:(intros x l' E; specialize (N0 x l' E); now apply Bool.orb_false_iff in N0 as (N0 & _)));
      specialize (IHb l ltac:(lia) Ub RS' SF' ltac:(intros x l' E; specialize (N0 x l' E); now apply Bool.orb_false_iff in N0 as (_ & N0)));
      destruct (may_be_empty a); cbn; [destruct IHa; eauto|]; destruct (may_be_empty b); cbn; [destruct IHb|]; eauto.
    (* opt *)
    1, 5: specialize (IHa l C Us RS SF N0); destruct (may_be_empty a); cbn; [destruct IHa|]; eauto.
    (* rep *)
    1, 4: specialize (IHa l C Us RS' SF N0); destruct (may_be_empty a); cbn in *; [discriminate|]; eauto.
    (* cut *)
    1, 3: specialize (IHa l C Us RS SF' N0); rewrite SF in *; destruct IHa; eauto.
    (* rules *)
    - lia.
    - destruct (ok i Us) as (Ui & Nu & Fi & Ge & Oa & Cf). rewrite Nu.
      assert (X : if may_be_empty (rules i) then exists t, peg rules (rules i) l (PSucc t l) else peg rules (rules i) l PFail).
      { apply IH; auto; [lia|now apply ahead_repeats in Oa|]. intros x l' E. specialize (N0 x l' E).
        now rewrite Fi in N0. }
      destruct (may_be_empty (rules i)); [destruct X|]; eauto.
  Qed.

  (** Every derivation is found. *)
  Lemma finds e w t : derives rules e w t -> forall r after, uses n e -> one_ahead e after -> admits after r ->
    peg rules e (w ++ r) (PSucc t r).
  Proof.
    assert (FL : forall a l after, uses n a -> one_ahead a after -> soft a = true -> may_be_empty a = false ->
      (forall x l', l = x :: l' -> starts a x = false) -> peg rules a l PFail).
    { intros a l after Ua Oa Sa Ea N0. pose proof (stands _ a l (le_n _) Ua (ahead_repeats _ _ Oa) Sa N0) as X. now rewrite Ea in X. }
    induction 1 as [x|x|p|a b v w s t D1 IH1 D2 IH2|a b w t D IH|a b w t D IH|a w t D IH|a|a|a v w t ts D1 IH1 D2 IH2|a w t D IH|i w t D IH];
      cbn; intros r after Us Oa A; try (now constructor).
    - destruct Us as (Ua & Ub), Oa as (Oa & Ob). rewrite <- app_assoc. econstructor.
      + apply IH1 with (then_after eqb null first b after); auto. eapply follows; eauto.
      + eauto.
    - destruct Us as (Ua & Ub), Oa as (Oa & Ob & _). constructor. eauto.
    - destruct Us as (Ua & Ub), Oa as (Oa & Ob & Sa & Ea & AP & AF). constructor; eauto.
      eapply FL; eauto. intros x l' E. destruct (starts a x) eqn:Q; auto. exfalso.
      pose proof (derives_starts b w t D Ub) as X. destruct w as [|y w]; cbn in E.
      + subst r. exact (AF X x Q A).
      + injection E as -> <-. exact (AP x Q X).
    - destruct Oa as (Oa & _). constructor. eauto.
    - destruct Oa as (Oa & Sa & Ea & AF). constructor. eapply FL; eauto. intros x l' ->.
      destruct (starts a x) eqn:Q; auto. exfalso. exact (AF x Q A).
    - destruct Oa as (Oa & Sa & Ea & AF). constructor. eapply FL; eauto. intros x l' ->.
      destruct (starts a x) eqn:Q; auto. exfalso. exact (AF x Q A).
    - pose proof Oa as Oa0. destruct Oa as (Oa & Sa & Ea & AF). rewrite <- app_assoc. econstructor.
      + apply (IH1 (w ++ r) (fun x => starts a x || after x)); auto.
        pose proof (derives_starts (GRep a) w _ D2 Us) as X. destruct w; cbn in *.
        * destruct r; cbn in *; auto. now rewrite A, Bool.orb_true_r.
        * now rewrite X.
      + eauto.
    - constructor. eauto.
    - destruct (ok i Us) as (Ui & Nu & Fi & Ge & Oi & Cf). constructor. apply IH with (follow i); auto.
      destruct r; cbn in *; auto.
  Qed.

  Lemma predictive_orderly : orderly rules null rank n.
  Proof.
    intros i L. destruct (ok i L) as (Ui & Nu & Fi & Ge & Oi & Cf). rewrite Nu. split; auto. split; auto.
    now apply ahead_repeats in Oi.
  Qed.
  Lemma predictive_uses i : i < n -> uses n (rules i).
  Proof. intros L. now apply ok. Qed.

  (** ** Time *)
  Definition quiet_at (e : gexp T) (l : list T) : Prop := forall x l', l = x :: l' -> starts e x = false.
  Definition noisy_at (e : gexp T) (l : list T) : Prop := exists x l', l = x :: l' /\ starts e x = true.
  Lemma quiet_or_noisy e l : quiet_at e l \/ noisy_at e l.
  Proof.
    destruct l as [|x l]; [left; discriminate|]. destruct (starts e x) eqn:Q; [right; exists x, l; auto|left].
    intros y l' E. now injection E as -> ->.
  Qed.
  Lemma quiet_join a b l : quiet_at (GJoin a b) l -> quiet_at a l /\ (may_be_empty a = true -> quiet_at b l).
  Proof.
    intros Q. split; [|intros Ea]; intros x l' E; specialize (Q x l' E); cbn in Q; apply Bool.orb_false_iff in Q as (Q & Q'); auto.
    now rewrite Ea in Q'.
  Qed.
  Lemma quiet_or a b l : quiet_at (GOr a b) l -> quiet_at a l /\ quiet_at b l.
  Proof. intros Q. split; intros x l' E; specialize (Q x l' E); cbn in Q; now apply Bool.orb_false_iff in Q as (Q & Q'). Qed.

  Ltac clash := repeat match goal with
    | A : peg rules ?a ?l ?o, B : peg rules ?a ?l ?o' |- _ =>
        lazymatch o with
        | o' => fail
        | _ => let E := fresh in pose proof (peg_det rules _ _ _ A _ B) as E;
               first [discriminate E | injection E; clear E; intros; subst | subst o | subst o']
        end
    end.

  (** An expression that is not started reads nothing. *)
  Lemma quiet_out e l o : peg rules e l o -> uses n e -> quiet_at e l ->
    forall t m, o = PSucc t m -> m = l /\ may_be_empty e = true.
  Proof.
    intros P Us Q t m ->. destruct (peg_derives e l _ P t m eq_refl) as (w & -> & D).
    pose proof (derives_starts e w t D Us) as X. destruct w as [|x w]; auto. cbn in Q. rewrite (Q x (w ++ m) eq_refl) in X. discriminate.
  Qed.
  Lemma quiet_fails a l after : uses n a -> one_ahead a after -> soft a = true -> may_be_empty a = false -> quiet_at a l ->
    peg rules a l PFail.
  Proof.
    intros Ua Oa Sa Ea N0. pose proof (stands _ a l (le_n _) Ua (ahead_repeats _ _ Oa) Sa N0) as X. now rewrite Ea in X.
  Qed.

  Context (R C K : nat).
  Hypothesis ranks : forall i, i < n -> rank i < R.
  Hypothesis C_pos : 1 <= C.
  Hypothesis C_ok : forall i x, i < n -> 1 <= x -> bnd x 0 (rules i) <= C * x.
  Notation w := (bnd (T := T) (C ^ R) 1).
  Hypothesis K_ok : forall i, i < n -> w (rules i) <= K.
  Notation cf := (called_first (T := T) null rank).
  Notation lim r := ((R - r + 1) * K).
  Notation beta := ((R + 1) * K + 1).

  Lemma bnd_up x x' N N' (e : gexp T) : x <= x' -> N <= N' -> bnd x N e <= bnd x' N' e.
  Proof.
    intros X M. induction e; cbn [bnd]; try lia. apply Nat.add_le_mono_r. apply Nat.mul_le_mono; lia.
  Qed.
  Lemma cf_below e : uses n e -> cf e <= R.
  Proof.
    induction e; cbn; intros U0; try lia.
    - destruct U0 as (U1 & U2). specialize (IHe1 U1). specialize (IHe2 U2). destruct (may_be_empty e1); lia.
    - destruct U0 as (U1 & U2). specialize (IHe1 U1). specialize (IHe2 U2). lia.
    - now apply IHe.
    - now apply IHe.
    - now apply IHe.
    - specialize (ranks _ U0). lia.
  Qed.
  Lemma c_pow_pos r : 1 <= C ^ r.
  Proof. pose proof (Nat.pow_nonzero C r). lia. Qed.
  Lemma c_pow_mono r r' : r <= r' -> C ^ r <= C ^ r'.
  Proof. intros. apply Nat.pow_le_mono_r; lia. Qed.

  Lemma quiet_cost e l h : calls rules e l h -> uses n e -> repeats_something null e = true -> quiet_at e l ->
    forall r, cf e <= r -> length h <= bnd (C ^ r) 0 e.
  Proof.
    induction 1; intros Us RS Q r CF; cbn [uses called_first bnd repeats_something] in *; rewrite ?app_length; cbn [length].
    - lia.
    - lia.
    - lia.
    - destruct Us as (U1 & U2). apply andb_true_iff in RS as (RA & RB). apply quiet_join in Q as (Qa & Qb).
      destruct (quiet_out _ _ _ H U1 Qa _ _ eq_refl) as (-> & Ea). specialize (Qb Ea). rewrite Ea in CF.
      specialize (IHcalls1 U1 RA Qa r ltac:(lia)). specialize (IHcalls2 U2 RB Qb r ltac:(lia)). lia.
    - destruct Us as (U1 & U2). apply andb_true_iff in RS as (RA & RB). apply quiet_join in Q as (Qa & Qb).
      specialize (IHcalls U1 RA Qa r ltac:(lia)). lia.
    - destruct Us as (U1 & U2). apply andb_true_iff in RS as (RA & RB). apply quiet_or in Q as (Qa & Qb).
      specialize (IHcalls U1 RA Qa r ltac:(lia)). lia.
    - destruct Us as (U1 & U2). apply andb_true_iff in RS as (RA & RB). apply quiet_or in Q as (Qa & Qb).
      specialize (IHcalls1 U1 RA Qa r ltac:(lia)). specialize (IHcalls2 U2 RB Qb r ltac:(lia)). lia.
    - specialize (IHcalls Us RS Q r ltac:(lia)). lia.
    - specialize (IHcalls Us RS Q r ltac:(lia)). lia.
    - apply andb_true_iff in RS as (NE & RA). specialize (IHcalls Us RA Q r ltac:(lia)). lia.
    - apply andb_true_iff in RS as (NE & RA). specialize (IHcalls Us RA Q r ltac:(lia)). lia.
    - apply andb_true_iff in RS as (NE & RA). exfalso.
      destruct (quiet_out _ _ _ H Us Q _ _ eq_refl) as (-> & Ea). rewrite Ea in NE. discriminate.
    - now apply (IHcalls Us RS Q r).
    - destruct (ok i Us) as (Ui & Nu & Fi & Ge & Oi & Cf).
      assert (Q' : quiet_at (rules i) l) by (intros x l' E; specialize (Q x l' E); cbn in Q; now rewrite <- Fi).
      specialize (IHcalls Ui (ahead_repeats _ _ Oi) Q' (rank i) Cf). pose proof (C_ok i (C ^ rank i) Us (c_pow_pos _)).
      pose proof (c_pow_mono (Datatypes.S (rank i)) r CF) as Y. cbn [Nat.pow] in Y. lia.
  Qed.
  Lemma quiet_cost_w e l h after : calls rules e l h -> uses n e -> one_ahead e after -> quiet_at e l ->
    length h <= bnd (C ^ R) 0 e /\ length h <= w e.
  Proof.
    intros H Us Oa Q. pose proof (quiet_cost e l h H Us (ahead_repeats _ _ Oa) Q R (cf_below e Us)).
    pose proof (bnd_up (C ^ R) (C ^ R) 0 1 e (le_n _) ltac:(lia)). lia.
  Qed.

  (** The items an outcome is charged to: what was read if what comes next may
      follow, everything otherwise (for nothing will be read from there). *)
  Definition admitsb (after : T -> bool) (l : list T) : bool := match l with [] => true | x :: _ => after x end.
  Definition due (after : T -> bool) (l : list T) (o : poutcome T) : nat :=
    match o with PSucc _ m => if admitsb after m then length l - length m else length l | _ => length l end.
  Lemma due_le after l o : due after l o <= length l.
  Proof. destruct o; cbn; try lia. destruct (admitsb after rest); lia. Qed.

  Lemma due_mono (f g : T -> bool) l o : (forall x, f x = true -> g x = true) -> due g l o <= due f l o.
  Proof.
    intros H. destruct o as [t m| |]; cbn; try lia. destruct m as [|x m]; cbn; [lia|].
    destruct (f x) eqn:Q; [rewrite (H _ Q); lia|destruct (g x); lia].
  Qed.
  Lemma noisy_long e l : noisy_at e l -> 1 <= length l.
  Proof. intros (x & l' & -> & _). cbn. lia. Qed.
  Lemma noisy_not_admitted e l after : noisy_at e l -> apart (starts e) after -> admitsb after l = false.
  Proof. intros (x & l' & -> & Q) AP. cbn. destruct (after x) eqn:A; auto. exfalso. exact (AP x Q A). Qed.
  Lemma lim_lt r : lim r < beta.
  Proof. assert (R - r + 1 <= R + 1) by lia. nia. Qed.
  Lemma lim_at_last : K <= lim R.
  Proof. nia. Qed.
  Lemma lim_rank r i : rank i < r -> r <= R -> lim r + K <= lim (rank i).
  Proof. intros. assert (R - rank i + 1 >= R - r + 1 + 1) by lia. nia. Qed.
  Lemma rest_le e l o : peg rules e l o -> forall t m, o = PSucc t m -> length m <= length l.
  Proof. intros P t m ->. exact (sfx_le _ _ (peg_sfx rules _ _ _ P _ _ eq_refl)). Qed.

  Lemma noisy_cost e l h : calls rules e l h -> forall o after, peg rules e l o -> noisy_at e l -> uses n e -> one_ahead e after ->
    w e <= K -> forall d r, cf e <= r -> r <= R -> d + w e <= lim r -> length h + d <= beta * due after l o.
  Proof.
    pose proof lim_at_last as LR.
    assert (ONE : forall x d r y, d + x <= lim r -> 1 <= y -> x + d <= beta * y).
    { intros x d r y A B. pose proof (lim_lt r). nia. }
    induction 1; intros o' after P NO Us OA WK d r CF RR D; pose proof (noisy_long _ _ NO) as NL;
      cbn [uses called_first bnd S_Lang.one_ahead] in *; rewrite ?app_length; cbn [length].
    - apply (ONE 1 d r); auto. inversion P; subst; cbn [due] in *; [|cbn in NL; lia]. destruct (admitsb after l0); cbn [length]; lia.
    - apply (ONE 1 d r); auto. inversion P; subst; cbn [due] in *; [|lia]. destruct (admitsb after l0); cbn [length]; lia.
    - apply (ONE 1 d r); auto. inversion P; subst; cbn [due] in *; [|lia]. destruct (admitsb after l0); [|lia].
      destruct p as [|y p]; [destruct NO as (? & ? & _ & NO); discriminate|]. rewrite app_length. cbn [length]. lia.
    - (* join *) destruct Us as (U1 & U2), OA as (Oa & Ob).
      assert (exists ob, peg rules b m ob /\ match ob with PSucc _ q => exists t', o' = PSucc t' q | _ => o' = ob end) as (ob & Pb & Eo).
      { inversion P; subst; clash; eexists; (split; [eassumption|]); cbn; eauto. }
      assert (DU : forall l0, due after l0 o' = due after l0 ob).
      { intros l0. destruct ob; [destruct Eo as (? & ->)|subst o'..]; reflexivity. }
      rewrite DU. pose proof (rest_le _ _ _ H _ _ eq_refl) as ML.
      destruct (quiet_or_noisy a l) as [Qa|Na].
      + destruct (quiet_out _ _ _ H U1 Qa _ _ eq_refl) as (-> & Ea). rewrite Ea in CF.
        destruct (quiet_cost_w _ _ _ _ H0 U1 Oa Qa) as (_ & QA).
        assert (Nb : noisy_at b l).
        { destruct NO as (x & l' & -> & NO). exists x, l'. split; auto. cbn in NO. rewrite (Qa x l' eq_refl), Ea in NO. exact NO. }
        specialize (IHcalls2 _ _ Pb Nb U2 Ob ltac:(lia) (d + w a) r ltac:(lia) RR ltac:(lia)). lia.
      + destruct (quiet_or_noisy b m) as [Qb|Nb].
        * destruct (quiet_cost_w _ _ _ _ H1 U2 Ob Qb) as (_ & QB).
          specialize (IHcalls1 _ _ H Na U1 Oa ltac:(lia) (d + w b) r ltac:(lia) RR ltac:(lia)). cbn [due] in IHcalls1.
          enough (beta * (if admitsb (then_after eqb null first b after) m then length l - length m else length l) <= beta * due after l ob) by lia.
          apply Nat.mul_le_mono_l. destruct ob as [tb q| |]; cbn [due]; try (destruct (admitsb (then_after eqb null first b after) m); lia).
          destruct (quiet_out _ _ _ Pb U2 Qb _ _ eq_refl) as (-> & Eb).
          destruct m as [|x m]; cbn; [lia|]. unfold then_after. rewrite (Qb x m eq_refl), Eb. cbn. lia.
        * assert (AD : admitsb (then_after eqb null first b after) m = true).
          { destruct Nb as (x & l' & -> & Nb). cbn. unfold then_after. now rewrite Nb. }
          specialize (IHcalls1 _ _ H Na U1 Oa ltac:(lia) d r ltac:(lia) RR ltac:(lia)). cbn [due] in IHcalls1. rewrite AD in IHcalls1.
          specialize (IHcalls2 _ _ Pb Nb U2 Ob ltac:(lia) 0 R (cf_below _ U2) (le_n _) ltac:(lia)).
          assert (DD : length l - length m + due after m ob <= due after l ob).
          { destruct ob as [tb q| |]; cbn [due]; try lia. pose proof (rest_le _ _ _ Pb _ _ eq_refl). destruct (admitsb after q); lia. }
          apply (Nat.mul_le_mono_l _ _ beta) in DD. rewrite Nat.mul_add_distr_l in DD. lia.
    - (* join, first fails *) destruct Us as (U1 & U2), OA as (Oa & Ob).
      assert (DU : due after l o' = length l /\ due (then_after eqb null first b after) l o = length l).
      { inversion P; subst; clash; try (exact (False_ind _ (H0 _ _ eq_refl))); auto. }
      destruct DU as (-> & DU). destruct (quiet_or_noisy a l) as [Qa|Na].
      + destruct (quiet_cost_w _ _ _ _ H1 U1 Oa Qa) as (_ & QA). enough (w a + d <= beta * length l) by lia. apply (ONE _ d r); auto. lia.
      + rewrite <- DU. apply (IHcalls o _ H Na U1 Oa ltac:(lia) d r); lia.
    - (* or, first *) destruct Us as (U1 & U2), OA as (Oa & Ob & Sa & Ea & AP & AF).
      assert (DU : due after l o' = due after l o) by (inversion P; subst; clash; try reflexivity; contradiction).
      rewrite DU. destruct (quiet_or_noisy a l) as [Qa|Na].
      + exfalso. apply H0. exact (peg_det rules _ _ _ H _ (quiet_fails _ _ _ U1 Oa Sa Ea Qa)).
      + apply (IHcalls o _ H Na U1 Oa ltac:(lia) d r); lia.
    - (* or, next *) destruct Us as (U1 & U2), OA as (Oa & Ob & Sa & Ea & AP & AF).
      assert (exists ob, peg rules b l ob /\ match ob with PSucc _ q => exists t', o' = PSucc t' q | _ => o' = ob end) as (ob & Pb & Eo).
      { inversion P; subst; clash; eexists; (split; [eassumption|]); cbn; eauto. }
      assert (DU : due after l o' = due after l ob).
      { destruct ob; [destruct Eo as (? & ->)|subst o'..]; reflexivity. }
      rewrite DU. destruct (quiet_or_noisy a l) as [Qa|Na].
      + destruct (quiet_cost_w _ _ _ _ H0 U1 Oa Qa) as (_ & QA).
        assert (Nb : noisy_at b l).
        { destruct NO as (x & l' & -> & NO). exists x, l'. split; auto. cbn in NO. now rewrite (Qa x l' eq_refl) in NO. }
        specialize (IHcalls2 _ _ Pb Nb U2 Ob ltac:(lia) (d + w a + 1) r ltac:(lia) RR ltac:(lia)). lia.
      + assert (Qb : quiet_at b l).
        { intros x l' E. destruct (starts b x) eqn:Q; auto. exfalso. destruct Na as (y & l'' & -> & Na). injection E as -> ->. exact (AP x Na Q). }
        destruct (quiet_cost_w _ _ _ _ H1 U2 Ob Qb) as (_ & QB).
        specialize (IHcalls1 _ _ H Na U1 Oa ltac:(lia) (d + w b + 1) r ltac:(lia) RR ltac:(lia)). cbn [due] in IHcalls1.
        assert (due after l ob = length l) as ->; [|lia].
        destruct ob as [tb q| |]; cbn [due]; auto. destruct (quiet_out _ _ _ Pb U2 Qb _ _ eq_refl) as (-> & Eb).
        now rewrite (noisy_not_admitted _ _ _ Na (AF Eb)).
    - (* opt *) destruct OA as (Oa & Sa & Ea & AF).
      assert (DU : due after l o' = due after l o) by (inversion P; subst; clash; try reflexivity; contradiction).
      rewrite DU. apply (IHcalls o _ H NO Us Oa ltac:(lia) d r); lia.
    - destruct OA as (Oa & Sa & Ea & AF).
      assert (DU : due after l o' = length l).
      { inversion P; subst; clash. cbn [due]. rewrite (noisy_not_admitted a l after NO AF). reflexivity. }
      rewrite DU. specialize (IHcalls _ _ H NO Us Oa ltac:(lia) (d + 1) r ltac:(lia) RR ltac:(lia)). cbn [due] in IHcalls. lia.
    - (* rep *) destruct OA as (Oa & Sa & Ea & AF).
      assert (DU : due after l o' = length l).
      { inversion P; subst; clash. cbn [due]. rewrite (noisy_not_admitted a l after NO AF). reflexivity. }
      rewrite DU. specialize (IHcalls _ _ H NO Us Oa ltac:(lia) (d + 1) r ltac:(lia) RR ltac:(lia)). cbn [due] in IHcalls. lia.
    - destruct OA as (Oa & Sa & Ea & AF).
      assert (DU : due after l o' = length l) by (inversion P; subst; clash; reflexivity).
      rewrite DU. specialize (IHcalls _ _ H NO Us Oa ltac:(lia) d r ltac:(lia) RR ltac:(lia)). cbn [due] in IHcalls. lia.
    - pose proof OA as OA0. destruct OA as (Oa & Sa & Ea & AF).
      assert (exists ob, peg rules (GRep a) m ob /\ match ob with PSucc _ q => exists t', o' = PSucc t' q | _ => o' = ob end) as (ob & Pb & Eo).
      { inversion P; subst; clash; eexists; (split; [eassumption|]); cbn; eauto. }
      assert (DU : due after l o' = due after l ob).
      { destruct ob; [destruct Eo as (? & ->)|subst o'..]; reflexivity. }
      rewrite DU. pose proof (rest_le _ _ _ H _ _ eq_refl) as ML.
      destruct (quiet_or_noisy (GRep a) m) as [Qb|Nb].
      + destruct (quiet_cost_w _ _ _ _ H1 Us OA0 Qb) as (QB & _). cbn [bnd] in QB.
        pose proof (bnd_up (C ^ R) (C ^ R) 0 1 a (le_n _) ltac:(lia)).
        specialize (IHcalls1 _ _ H NO Us Oa ltac:(lia) (d + w a + 1) r ltac:(lia) RR ltac:(lia)). cbn [due] in IHcalls1.
        set (aa := fun x => starts a x || after x) in *.
        enough (beta * (if admitsb aa m then length l - length m else length l) <= beta * due after l ob) by lia.
        apply Nat.mul_le_mono_l. destruct ob as [tb q| |]; cbn [due]; try (destruct (admitsb aa m); lia).
        destruct (quiet_out _ _ _ Pb Us Qb _ _ eq_refl) as (-> & Eb).
        destruct m as [|x m]; cbn; [lia|]. unfold aa. pose proof (Qb x m eq_refl) as Y. cbn in Y. rewrite Y. cbn. lia.
      + assert (AD : admitsb (fun x => starts a x || after x) m = true).
        { destruct Nb as (x & l' & -> & Nb). cbn. cbn in Nb. now rewrite Nb. }
        specialize (IHcalls1 _ _ H NO Us Oa ltac:(lia) d r ltac:(lia) RR ltac:(lia)). cbn [due] in IHcalls1. rewrite AD in IHcalls1.
        specialize (IHcalls2 _ after Pb Nb Us OA0 WK 0 R (cf_below _ Us) (le_n _) ltac:(lia)).
        assert (DD : length l - length m + due after m ob <= due after l ob).
        { destruct ob as [tb q| |]; cbn [due]; try lia. pose proof (rest_le _ _ _ Pb _ _ eq_refl). destruct (admitsb after q); lia. }
        apply (Nat.mul_le_mono_l _ _ beta) in DD. rewrite Nat.mul_add_distr_l in DD. lia.
    - (* cut *) assert (exists oa, peg rules a l oa /\ due after l o' = due after l oa) as (oa & Pa & ->).
      { inversion P; subst; eexists; (split; [eassumption|]); reflexivity. }
      apply (IHcalls oa _ Pa NO Us OA WK d r); auto.
    - (* rule *) inversion P; subst. destruct (ok i Us) as (Ui & Nu & Fi & Ge & Oi & Cf).
      assert (NO' : noisy_at (rules i) l) by (destruct NO as (x & l' & -> & NO); exists x, l'; split; auto; cbn in NO; now rewrite <- Fi).
      pose proof (K_ok i Us) as KI. pose proof (lim_rank r i CF RR) as UP.
      specialize (IHcalls o' (follow i) H1 NO' Ui Oi KI d (rank i) Cf ltac:(specialize (ranks i Us); lia) ltac:(lia)).
      pose proof (Nat.mul_le_mono_l _ _ beta (due_mono after (follow i) l o' OA)). lia.
  Qed.

  Lemma predictive_cost e after l h : uses n e -> one_ahead e after -> w e <= K -> calls rules e l h ->
    length h <= beta * (length l + 1).
  Proof.
    intros Us OA WK H. destruct (calls_answered eqb eqb_ok rules e l h H) as (o & P). pose proof lim_at_last.
    destruct (quiet_or_noisy e l) as [Q|Q].
    - destruct (quiet_cost_w e l h after H Us OA Q) as (_ & B). pose proof (lim_lt R). nia.
    - pose proof (noisy_cost e l h H o after P Q Us OA WK 0 R (cf_below e Us) (le_n _) ltac:(lia)) as B.
      pose proof (due_le after l o). assert (beta * due after l o <= beta * (length l + 1)) by (apply Nat.mul_le_mono_l; lia). lia.
  Qed.
End Lang.
