(** * L_Ends: lemmas for S_Ends. *)
From Verif Require Export S_Ends L_Peg.

Section Ends.
  Context {T : Type} (eqb : T -> T -> bool) (rules : nat -> gexp T) (eqb_ok : decides_eq eqb).
  Notation run fuel e := (parse (parser_of eqb rules fuel e)).
  Notation needs := (needs rules).
  Notation goes_round := (goes_round rules).
  #[local] Arguments slice_rewind : simpl never.
  Definition sfx (m l : list T) : Prop := exists a, l = a ++ m.

  Lemma sfx_refl l : sfx l l. Proof. now exists []. Qed.
  Lemma sfx_trans a b c : sfx a b -> sfx b c -> sfx a c.
  Proof. intros (x & ->) (y & ->). exists (y ++ x). now rewrite app_assoc. Qed.
  Lemma sfx_le m l : sfx m l -> length m <= length l.
  Proof. intros (a & ->). rewrite app_length. lia. Qed.
  Lemma sfx_eq m m' l : sfx m l -> sfx m' l -> length m = length m' -> m = m'.
  Proof.
    intros (a & ->) (b & E) L. assert (La : length a = length b).
    { apply (f_equal (@length T)) in E. rewrite !app_length in E. lia. }
    apply (f_equal (skipn (length a))) in E. rewrite skipn_app, skipn_all, Nat.sub_diag in E. cbn in E.
    rewrite E, La, skipn_app, skipn_all, Nat.sub_diag. reflexivity.
  Qed.
  Lemma peg_sfx e l o : peg rules e l o -> forall t m, o = PSucc t m -> sfx m l.
  Proof.
    induction 1; intros t' m' E; try discriminate; try (injection E as <- <-); eauto using sfx_refl, sfx_trans.
    - now exists [x].
    - now exists [x].
    - now exists p.
  Qed.
  Lemma needs_sfx x y : needs x y -> sfx (snd y) (snd x).
  Proof. destruct 1; cbn; eauto using sfx_refl, peg_sfx. Qed.

  (** ** What has an answer does not go round *)
  Lemma answered_acc e l o : peg rules e l o -> Acc (fun y x => needs x y) (e, l).
  Proof.
    induction 1; constructor; intros y N; inversion N; subst; auto;
      match goal with
      | A : peg rules ?a ?l ?o, B : peg rules ?a ?l ?o' |- _ =>
          pose proof (peg_det rules _ _ _ A _ B) as X; inversion X; subst; auto
      end.
  Qed.
  Lemma acc_plus x : Acc (fun y x => needs x y) x -> clos_trans _ needs x x -> False.
  Proof.
    intros A. assert (P : Acc (fun y x => clos_trans _ needs x y) x).
    { clear - A. induction A as [x _ IH]. constructor. intros y N. apply clos_trans_t1n in N.
      induction N as [x y N|x y z N N' IN]; auto. apply clos_t1n_trans in N'. now apply (Acc_inv (IH y N)). }
    clear A. induction P as [x _ IH]. intros N. exact (IH x N N).
  Qed.
  Lemma answered_not_round e l o : peg rules e l o -> ~ goes_round e l.
  Proof.
    intros P (x & R & C). apply answered_acc in P. revert P. generalize dependent (e, l). intros y R.
    induction R as [|y z w N R IH]; intros P; [now apply (acc_plus x)|]. apply IH; auto. now apply (Acc_inv P).
  Qed.

  (** ** What does not go round has an answer *)
  Lemma round_step e l e' l' : needs (e, l) (e', l') -> goes_round e' l' -> goes_round e l.
  Proof. intros N (x & R & C). exists x. split; auto. econstructor; eauto. Qed.

  Lemma known fuel e s o : peg rules e (sl_data s) o -> run fuel e s <> OutOfFuel -> has_outcome s (run fuel e s) o.
  Proof.
    intros P N. destruct (sound eqb rules eqb_ok fuel e s) as [E|(o' & H & Q)]; [contradiction|].
    now rewrite (peg_det rules _ _ _ P _ Q).
  Qed.

  Section Finite.
    Context (n : nat) (t0 : list T).
    Hypothesis fin : forall i, i < n -> uses n (rules i).
    Definition places : list (nat * nat) := list_prod (seq 0 n) (seq 0 (S (length t0))).
    Lemma places_length : length places = n * S (length t0).
    Proof. unfold places. now rewrite prod_length, !seq_length. Qed.
    Lemma places_in i l : i < n -> sfx l t0 -> In (i, length l) places.
    Proof. intros H L. apply sfx_le in L. apply in_prod; apply in_seq; lia. Qed.

    (** Answered by a run of this fuel. *)
    Definition ans (b : nat) e l : Prop :=
      exists o, peg rules e l o /\ forall fuel, b + length t0 + 2 <= fuel -> forall s, sl_data s = l -> run fuel e s <> OutOfFuel.

    Lemma outcome_or_round b : forall V, NoDup V -> incl V places -> length V + b = length places ->
      forall e l, uses n e -> sfx l t0 ->
      (forall i k, In (i, k) V -> exists l', length l' = k /\ sfx l' t0 /\ clos_trans _ needs (GRef i, l') (e, l)) ->
      ans b e l \/ goes_round e l.
    Proof.
      induction b as [b IHb] using lt_wf_ind. intros V ND INC LEN.
      assert (STEP : forall e l e' l', needs (e, l) (e', l') ->
        (forall i k, In (i, k) V -> exists l', length l' = k /\ sfx l' t0 /\ clos_trans _ needs (GRef i, l') (e, l)) ->
        forall i k, In (i, k) V -> exists l'', length l'' = k /\ sfx l'' t0 /\ clos_trans _ needs (GRef i, l'') (e', l')).
      { intros e l e' l' N H i k I0. destruct (H i k I0) as (l0 & A & B & C). exists l0. split; auto. split; auto.
        eapply t_trans; [exact C|]. now apply t_step. }
      induction e; intros l U S0 HV; cbn in U.
      - (* any *) left. destruct l as [|x l]; eexists; (split; [constructor|]); intros fuel _ [al off d] D; cbn in D; subst d; rewrite run_any; discriminate.
      - (* the *) left. destruct l as [|y l].
        + eexists. split; [apply pg_the_not; discriminate|]. intros fuel _ [al off d] D. cbn in D. subst d. rewrite run_the. discriminate.
        + destruct (eqb y x) eqn:E.
          * apply eqb_ok in E. subst y. eexists. split; [constructor|]. intros fuel _ [al off d] D. cbn in D. subst d.
            rewrite run_the, the_slice. destruct (eqb x x); discriminate.
          * eexists. split; [apply pg_the_not; intros l' F; injection F as -> _; rewrite (proj2 (eqb_ok x x) eq_refl) in E; discriminate|].
            intros fuel _ [al off d] D. cbn in D. subst d. rewrite run_the, the_slice, E. discriminate.
      - (* atom *) left. destruct (list_eqb eqb (firstn (length p) l) p) eqn:E.
        + apply (list_eqb_ok eqb eqb_ok) in E. assert (F : l = p ++ skipn (length p) l) by (rewrite <- E at 1; symmetry; apply firstn_skipn).
          exists (PSucc TUnit (skipn (length p) l)). split; [rewrite F at 1; apply pg_atom|]. intros fuel _ [al off d] D. cbn in D. subst d.
          rewrite run_atom, (proj1 (atom_slice eqb eqb_ok p al off _) _ F). discriminate.
        + assert (F : forall r, l <> p ++ r).
          { intros r ->. rewrite firstn_app, Nat.sub_diag, firstn_all in E. cbn in E. rewrite app_nil_r in E.
            rewrite (proj2 (list_eqb_ok eqb eqb_ok p p) eq_refl) in E. discriminate. }
          eexists. split; [apply pg_atom_not; exact F|]. intros fuel _ [al off d] D. cbn in D. subst d. rewrite run_atom.
          rewrite (proj2 (atom_slice eqb eqb_ok p al off _) F). discriminate.
      - (* join *) destruct U as (U1 & U2).
        destruct (IHe1 l U1 S0 (STEP _ _ _ _ (nd_join rules e1 e2 l) HV)) as [(o & P & R)|R];
          [|right; eapply round_step; [apply nd_join|exact R]].
        destruct o as [t m| |].
        + destruct (IHe2 m U2 (sfx_trans _ _ _ (peg_sfx _ _ _ P _ _ eq_refl) S0) (STEP _ _ _ _ (nd_join_next rules e1 e2 l t m P) HV)) as [(o & P' & R')|R'];
            [|right; eapply round_step; [eapply nd_join_next; exact P|exact R']].
          left. assert (K : forall fuel, b + length t0 + 2 <= fuel -> forall s, sl_data s = l -> run fuel (GJoin e1 e2) s <> OutOfFuel).
          { intros fuel F s D. rewrite run_join. pose proof (known fuel e1 s _ ltac:(rewrite D; exact P) (R fuel F s D)) as (s1 & -> & _ & D1).
            cbn. specialize (R' fuel F s1 D1). destruct (run fuel e2 s1) as [[]| | |]; cbn; try discriminate. contradiction. }
          destruct o as [t' m'| |]; eexists; (split; [|exact K]); [eapply pg_join|eapply pg_join_fail2|eapply pg_join_cut2]; eauto.
        + left. exists PFail. split; [now apply pg_join_fail1|]. intros fuel F s D. rewrite run_join.
          pose proof (known fuel e1 s _ ltac:(rewrite D; exact P) (R fuel F s D)) as (s1 & -> & _). discriminate.
        + left. exists PCut. split; [now apply pg_join_cut1|]. intros fuel F s D. rewrite run_join.
          pose proof (known fuel e1 s _ ltac:(rewrite D; exact P) (R fuel F s D)) as (s1 & -> & _). discriminate.
      - (* or *) destruct U as (U1 & U2).
        destruct (IHe1 l U1 S0 (STEP _ _ _ _ (nd_or rules e1 e2 l) HV)) as [(o & P & R)|R];
          [|right; eapply round_step; [apply nd_or|exact R]].
        destruct o as [t m| |].
        + left. eexists. split; [apply pg_or_first; exact P|]. intros fuel F s D. rewrite run_or.
          pose proof (known fuel e1 s _ ltac:(rewrite D; exact P) (R fuel F s D)) as (s1 & -> & _). discriminate.
        + destruct (IHe2 l U2 S0 (STEP _ _ _ _ (nd_or_next rules e1 e2 l P) HV)) as [(o & P' & R')|R'];
            [|right; eapply round_step; [eapply nd_or_next; exact P|exact R']].
          left. assert (K : forall fuel, b + length t0 + 2 <= fuel -> forall s, sl_data s = l -> run fuel (GOr e1 e2) s <> OutOfFuel).
          { intros fuel F s D. rewrite run_or. pose proof (known fuel e1 s _ ltac:(rewrite D; exact P) (R fuel F s D)) as (s1 & -> & L).
            cbn. rewrite (back _ _ L). cbn. specialize (R' fuel F s D). destruct (run fuel e2 s) as [[]| | |]; cbn; try discriminate. contradiction. }
          destruct o as [t' m'| |]; eexists; (split; [|exact K]); [eapply pg_or_last|eapply pg_or_fail|eapply pg_or_cut2]; eauto.
        + left. exists PCut. split; [now apply pg_or_cut|]. intros fuel F s D. rewrite run_or.
          pose proof (known fuel e1 s _ ltac:(rewrite D; exact P) (R fuel F s D)) as (s1 & -> & _). discriminate.
      - (* optional *)
        destruct (IHe l U S0 (STEP _ _ _ _ (nd_opt rules e l) HV)) as [(o & P & R)|R];
          [|right; eapply round_step; [apply nd_opt|exact R]].
        left. assert (K : forall fuel, b + length t0 + 2 <= fuel -> forall s, sl_data s = l -> run fuel (GOpt e) s <> OutOfFuel).
        { intros fuel F s D. rewrite run_opt. pose proof (known fuel e s _ ltac:(rewrite D; exact P) (R fuel F s D)) as H.
          destruct o; destruct H as (s1 & -> & L); cbn; try discriminate. rewrite (back _ _ L). discriminate. }
        destruct o as [t m| |]; eexists; (split; [|exact K]); [eapply pg_opt_some|eapply pg_opt_none|eapply pg_opt_cut]; eauto.
      - (* repeat *)
        enough (G : forall k l, length l < k -> sfx l t0 ->
          (forall i k, In (i, k) V -> exists l', length l' = k /\ sfx l' t0 /\ clos_trans _ needs (GRef i, l') (GRep e, l)) ->
          (exists o, peg rules (GRep e) l o /\ (forall t m, o = PSucc t m -> exists ts, t = TMany ts) /\ o <> PFail /\
             forall fuel, b + length t0 + 2 <= fuel -> forall turns s buf, length l < turns -> sl_data s = l ->
             repeat_loop turns (parser_of eqb rules fuel e) buf s <> OutOfFuel) \/ goes_round (GRep e) l).
        { destruct (G (S (length l)) l ltac:(lia) S0 HV) as [(o & P & _ & _ & R)|R]; [left|right; exact R].
          exists o. split; auto. intros fuel F s D. rewrite run_rep.
          specialize (R fuel F fuel s [] ltac:(pose proof (sfx_le _ _ S0); lia) D).
          destruct (repeat_loop _ _ _ _) as [[[? ?]|]| | |]; cbn; try discriminate. contradiction. }
        clear l S0 HV. induction k as [|k IHk]; intros l LL S0 HV; [lia|].
        destruct (IHe l U S0 (STEP _ _ _ _ (nd_rep rules e l) HV)) as [(o & P & R)|R];
          [|right; eapply round_step; [apply nd_rep|exact R]].
        destruct o as [t m| |].
        + pose proof (peg_sfx _ _ _ P _ _ eq_refl) as SM. destruct (Nat.eq_dec (length m) (length l)) as [E|E].
          * right. apply (sfx_eq _ _ _ SM (sfx_refl l)) in E. subst m. exists (GRep e, l). split; [constructor|]. apply t_step. econstructor; eauto.
          * pose proof (sfx_le _ _ SM). destruct (IHk m ltac:(lia) (sfx_trans _ _ _ SM S0) (STEP _ _ _ _ (nd_rep_next rules e l t m P) HV)) as [(o & P' & TS & NF & R')|R'];
              [|right; eapply round_step; [eapply nd_rep_next; exact P|exact R']].
            left. assert (K : forall fuel, b + length t0 + 2 <= fuel -> forall turns s buf, length l < turns -> sl_data s = l ->
              repeat_loop turns (parser_of eqb rules fuel e) buf s <> OutOfFuel).
            { intros fuel F [|turns] s buf LT D; [lia|]. cbn [repeat_loop].
              pose proof (known fuel e s _ ltac:(rewrite D; exact P) (R fuel F s D)) as (s1 & -> & _ & D1). cbn. apply R'; auto. lia. }
            destruct o as [t' m'| |]; [|congruence|].
            -- destruct (TS _ _ eq_refl) as (ts & ->). exists (PSucc (TMany (t :: ts)) m'). split; [eapply pg_rep_more; eauto|].
               split; [intros ? ? F; injection F as <- <-; eauto|]. split; [discriminate|exact K].
            -- exists PCut. split; [eapply pg_rep_cut2; eauto|]. split; [discriminate|]. split; [discriminate|exact K].
        + left. exists (PSucc (TMany []) l). split; [now apply pg_rep_end|]. split; [intros ? ? F; injection F as <- <-; eauto|]. split; [discriminate|].
          intros fuel F [|turns] s buf LT D; [lia|]. cbn [repeat_loop].
          pose proof (known fuel e s _ ltac:(rewrite D; exact P) (R fuel F s D)) as (s1 & -> & L). cbn. rewrite (back _ _ L). discriminate.
        + left. exists PCut. split; [now apply pg_rep_cut|]. split; [discriminate|]. split; [discriminate|].
          intros fuel F [|turns] s buf LT D; [lia|]. cbn [repeat_loop].
          pose proof (known fuel e s _ ltac:(rewrite D; exact P) (R fuel F s D)) as (s1 & -> & L). discriminate.
      - (* cut *)
        destruct (IHe l U S0 (STEP _ _ _ _ (nd_cut rules e l) HV)) as [(o & P & R)|R];
          [|right; eapply round_step; [apply nd_cut|exact R]].
        left. assert (K : forall fuel, b + length t0 + 2 <= fuel -> forall s, sl_data s = l -> run fuel (GCut e) s <> OutOfFuel).
        { intros fuel F s D. rewrite run_cut. pose proof (known fuel e s _ ltac:(rewrite D; exact P) (R fuel F s D)) as H.
          destruct o; destruct H as (s1 & -> & L); cbn; discriminate. }
        destruct o as [t m| |]; eexists; (split; [|exact K]); [eapply pg_cut_ok|eapply pg_cut_fail|eapply pg_cut_cut]; eauto.
      - (* a rule *)
        assert (DEC : {In (i, length l) V} + {~ In (i, length l) V}) by (apply in_dec; decide equality; apply Nat.eq_dec).
        destruct DEC as [I0|I0].
        + right. destruct (HV _ _ I0) as (l' & E & S1 & C). apply (sfx_eq _ _ _ S1 S0) in E. subst l'.
          exists (GRef i, l). split; [constructor|exact C].
        + assert (INC' : incl ((i, length l) :: V) places) by (intros x [<-|H]; [now apply places_in|auto]).
          assert (ND' : NoDup ((i, length l) :: V)) by (now constructor).
          pose proof (NoDup_incl_length ND' INC') as LE. cbn in LE. destruct b as [|b]; [lia|].
          destruct (IHb b ltac:(lia) _ ND' INC' ltac:(cbn; lia) (rules i) l (fin i U) S0) as [(o & P & R)|R].
          * intros j k [F|F].
            -- injection F as <- <-. exists l. split; auto. split; auto. apply t_step. constructor.
            -- apply (STEP _ _ _ _ (nd_ref rules i l) HV j k F).
          * left. exists o. split; [now constructor|]. intros fuel F s D. rewrite run_ref. destruct fuel as [|fuel]; [lia|].
            apply R; auto. lia.
          * right. eapply round_step; [apply nd_ref|exact R].
    Qed.
  End Finite.

  (** ** The criterion *)
  Section Orderly.
    Context (n : nat) (null : nat -> bool) (rank : nat -> nat).
    Hypothesis fin : forall i, i < n -> uses n (rules i).
    Hypothesis ord : orderly rules null rank n.

    Lemma nonempty_reads e l o : peg rules e l o -> uses n e -> forall t m, o = PSucc t m -> length m = length l -> may_be_empty null e = true.
    Proof.
      induction 1; intros U t' m' E L; try discriminate; try (injection E as <- <-); cbn in *; auto;
        try (destruct U as (U1 & U2)); try lia.
      - destruct p; cbn in *; auto. rewrite app_length in L. lia.
      - pose proof (sfx_le _ _ (peg_sfx _ _ _ H _ _ eq_refl)). pose proof (sfx_le _ _ (peg_sfx _ _ _ H0 _ _ eq_refl)).
        rewrite (IHpeg1 U1 _ _ eq_refl), (IHpeg2 U2 _ _ eq_refl) by lia. reflexivity.
      - now rewrite (IHpeg U1 _ _ eq_refl L).
      - rewrite (IHpeg2 U2 _ _ eq_refl L). now destruct (may_be_empty null a).
      - eauto.
      - subst o. apply (ord i U). eapply IHpeg; eauto.
    Qed.

    Fixpoint gsize (e : gexp T) : nat :=
      match e with
      | GAny | GThe _ | GAtom _ | GRef _ => 0
      | GJoin a b | GOr a b => S (gsize a + gsize b)
      | GOpt a | GRep a | GCut a => S (gsize a)
      end.
    Definition good (x : gexp T * list T) : Prop := uses n (fst x) /\ repeats_something null (fst x) = true.
    Notation cf := (called_first null rank).
    Definition smaller (y x : gexp T * list T) : Prop :=
      length (snd y) < length (snd x) \/ (length (snd y) = length (snd x) /\
        (cf (fst y) < cf (fst x) \/ (cf (fst y) <= cf (fst x) /\ gsize (fst y) < gsize (fst x)))).
    Lemma needs_smaller x y : good x -> needs x y -> good y /\ smaller y x.
    Proof.
      intros (U & R) N. unfold good, smaller.
      destruct N; cbn in *; try (destruct U as (U1 & U2)); try (apply andb_true_iff in R; destruct R as (R1 & R2));
        repeat match goal with |- _ /\ _ => split end; auto;
        try (right; split; [reflexivity|right; split; lia]).
      - pose proof (sfx_le _ _ (peg_sfx _ _ _ H _ _ eq_refl)). destruct (Nat.eq_dec (length m) (length l)) as [E|E]; [|left; lia].
        right. split; auto. right. rewrite (nonempty_reads _ _ _ H U1 _ _ eq_refl E). split; lia.
      - apply andb_true_iff; auto.
      - pose proof (sfx_le _ _ (peg_sfx _ _ _ H _ _ eq_refl)). destruct (Nat.eq_dec (length m) (length l)) as [E|E]; [|left; lia].
        rewrite (nonempty_reads _ _ _ H U _ _ eq_refl E) in R1. discriminate.
      - apply (ord i U).
      - right. split; auto. left. destruct (ord i U) as (_ & B & _). lia.
    Qed.
    Lemma smaller_trans x y z : smaller x y -> smaller y z -> smaller x z.
    Proof. unfold smaller. lia. Qed.
    Lemma needs_plus_smaller x y : clos_trans _ needs x y -> good x -> good y /\ smaller y x.
    Proof.
      induction 1; intros G; [now apply needs_smaller|]. destruct (IHclos_trans1 G) as (G1 & S1).
      destruct (IHclos_trans2 G1) as (G2 & S2). split; auto. eapply smaller_trans; eauto.
    Qed.
    Lemma orderly_not_round e l : uses n e -> repeats_something null e = true -> ~ goes_round e l.
    Proof.
      intros U R (x & ST & C). assert (G : good x).
      { assert (G0 : good (e, l)) by (split; auto). revert G0. generalize dependent (e, l). intros y ST.
        induction ST; intros G0; auto. apply IHST; auto. eapply needs_smaller; eauto. }
      destruct (needs_plus_smaller _ _ C G) as (_ & B). unfold smaller in B. lia.
    Qed.
  End Orderly.
End Ends.
