(** * L_Example3: exactly which texts the example's parser accepts, refuses and breaks on. *)
From Verif Require Export L_Example.

Section Exact.
  Context {S A : Type} {SQ : Sequence S str} {RS : RewindSequence S A} {reach : S -> S -> Prop}.
  Context (LP : lawful_positions reach).
  Context (usize_max : nat) (overflow_checks : bool) (budget : nat) (big : 2 < usize_max).
  Context (NG : forall s : S, no_gaps s).
  Let LR := lp_rewind LP.
  Notation ex d := (expr_parse usize_max overflow_checks budget d).
  Notation tm d := (term_parse usize_max (ex d)).
  Notation pair_ d := (sequence (behaves (parse (spaced_op budget))) (behaves (parse (closure (tm d))))).
  Notation opening := (atom_parse (Str [40%N])).
  Notation closing := (atom_parse (Str [41%N])).
  Notation breaks := (breaks usize_max).
  Notation term_breaks := (term_breaks usize_max).

  Lemma wide_not_one c : (128 <= c)%N -> len_utf8 c =? 1 = false.
  Proof.
    intros H. unfold len_utf8. destruct (N.ltb_spec c 128); [lia|].
    destruct (c <? 2048)%N, (c <? 65536)%N; reflexivity.
  Qed.
  Lemma wide_no_digit c : (128 <= c)%N -> ~ digit c.
  Proof. unfold digit. lia. Qed.

  Lemma numeral_digits ds n : numeral ds n -> ds <> [] /\ Forall digit ds.
  Proof. rewrite numeral_value. tauto. Qed.

  (** *** Texts that break it *)
  Lemma term_breaks_no_space cs : term_breaks cs -> no_space cs.
  Proof.
    intros H r E. destruct H as [ds n rest N _ _|c rest W|cs _|e cs c rest _ _].
    - apply numeral_digits in N. destruct N as [Nn F]. destruct ds as [|c ds]; [congruence|]. inversion F; subst.
      cbn in E. injection E as -> _. unfold digit in *. lia.
    - injection E as -> _. lia.
    - discriminate.
    - discriminate.
  Qed.

  Lemma breaks_chain cs : breaks cs -> term_breaks cs \/
    exists t ct ps cps sp o sp' rest, cs = ct ++ concat cps ++ sp ++ [symbol o] ++ sp' ++ rest /\
      writes (ETerm t) ct /\ Forall2 pair_text ps cps /\ spaces sp /\ spaces sp' /\ term_breaks rest.
  Proof.
    induction 1 as [cs H|t ct sp o sp' cs W S1 S2 _ IH]; [auto|]. right. destruct IH as [IH|IH].
    - exists t, ct, [], [], sp, o, sp', cs. repeat split; auto; try apply S1; apply S2.
    - destruct IH as (t2 & ct2 & ps & cps & sp2 & o2 & sp2' & rest & -> & W2 & F & S3 & S4 & B).
      exists t, ct, ((o, t2) :: ps), ((sp ++ [symbol o] ++ sp' ++ ct2) :: cps), sp2, o2, sp2', rest.
      split; [cbn [concat]; now rewrite <- !app_assoc|]. split; auto. split; [|auto].
      constructor; auto. exists sp, sp', ct2. auto.
  Qed.

  Lemma term_breaks_panics d :
    (forall s : S, length (text s) < d -> length (text s) < budget -> breaks (text s) -> ex d s = Panic) ->
    forall s : S, length (text s) <= d -> length (text s) < budget -> term_breaks (text s) -> tm d s = Panic.
  Proof.
    intros HE s L Lb B. rewrite (term_parse_eq LP).
    destruct (integer_exact LP usize_max s) as (ds & rest0 & T0 & F & G & H1 & H2). specialize (G (NG s)).
    assert (forall c r, text s = c :: r -> ~ digit c -> ds = []) as Nd.
    { intros c r E D. destruct ds as [|c' ds]; auto. rewrite T0 in E. cbn in E. injection E as -> _. inversion F; subst. contradiction. }
    remember (text s) as cs eqn:Ts.
    destruct B as [ds' n rest N M Nr|c rest W|cs Hc|e cs c rest We W].
    - destruct (numeral_digits _ _ N) as [_ F'].
      destruct (digits_split_unique ds rest0 ds' rest) as [-> ->]; auto.
      destruct (H2 n N) as [_ K]. rewrite (K M). reflexivity.
    - rewrite (H1 (Nd c rest eq_refl (wide_no_digit c W))). cbn [bind].
      pose proof (atom_one LP 40%N s eq_refl) as A1. rewrite <- Ts in A1.
      destruct (N.eqb_spec c 40) as [->|_]; [lia|]. rewrite (wide_not_one c W) in A1.
      change (opening s = Panic) in A1. rewrite A1. reflexivity.
    - rewrite (H1 (Nd 40%N cs eq_refl ltac:(unfold digit; lia))). cbn [bind].
      pose proof (atom_one LP 40%N s eq_refl) as A1. rewrite <- Ts in A1. rewrite N.eqb_refl in A1.
      destruct A1 as (s1 & P1 & T1 & _). change (opening s = Ret (Ok tt s1)) in P1. rewrite P1. cbn [bind].
      rewrite HE; [reflexivity| | |rewrite T1; exact Hc]; rewrite T1; cbn in L, Lb; unfold char in *; lia.
    - rewrite (H1 (Nd 40%N _ eq_refl ltac:(unfold digit; lia))). cbn [bind].
      pose proof (atom_one LP 40%N s eq_refl) as A1. rewrite <- Ts in A1. rewrite N.eqb_refl in A1.
      destruct A1 as (s1 & P1 & T1 & _). change (opening s = Ret (Ok tt s1)) in P1. rewrite P1. cbn [bind].
      cbn in L, Lb. rewrite app_length in L, Lb. cbn in L, Lb.
      destruct (expr_complete LP usize_max overflow_checks budget big NG d s1 e cs (c :: rest) T1 We) as [E1 E2].
      { cbn. split; [now apply wide_no_digit|]. lia. }
      { unfold char in *. lia. }
      { rewrite T1, app_length. cbn. unfold char in *. lia. }
      destruct (fits_dec usize_max e) as [Fi|Fi]; [|rewrite (E2 Fi); reflexivity].
      destruct (E1 Fi) as (s2 & P2 & T2 & _). rewrite P2. cbn [bind].
      pose proof (atom_one LP 41%N s2 eq_refl) as A2. rewrite T2 in A2.
      destruct (N.eqb_spec c 41) as [->|_]; [lia|]. rewrite (wide_not_one c W) in A2.
      change (closing s2 = Panic) in A2. rewrite A2. reflexivity.
  Qed.

  Lemma expr_breaks_panics d : forall s : S, length (text s) < d -> length (text s) < budget ->
    breaks (text s) -> ex d s = Panic.
  Proof.
    induction d as [|d IH]; intros s L Lb B; [lia|].
    apply breaks_chain in B. destruct B as [B|(t & ct & ps & cps & sp & o & sp' & rest & T & W & F & S1 & S2 & B)].
    - rewrite expr_parse_eq. cbn [parse BinExpr]. unfold bin_expr_parse, parse_impl. cbn [parse closure].
      rewrite (term_breaks_panics d IH s) by (auto; lia). reflexivity.
    - assert (no_digit (sp ++ [symbol o] ++ sp' ++ rest)) as Ns.
      { destruct S1 as [N1 F1]. destruct sp as [|c sp]; [congruence|]. inversion F1; subst. apply (space_not_digit usize_max big). }
      destruct (expr_start LP usize_max overflow_checks budget big NG d d s t ct ps cps _
        (expr_complete LP usize_max overflow_checks budget big NG d) T W F) as [H1 H2].
      { apply stops_of_no_digit. exact Ns. }
      { rewrite T, !app_length in L. rewrite app_length. unfold char in *. lia. }
      { exact Lb. }
      assert ({Forall (fun p : Op * Term => term_fits usize_max (snd p)) ps} + {~ Forall (fun p : Op * Term => term_fits usize_max (snd p)) ps}) as D.
      { apply Forall_dec. intros p. apply term_fits_dec. }
      destruct D as [D|D]; [|apply H2; tauto]. destruct (term_fits_dec usize_max t) as [D'|D']; [|apply H2; tauto].
      destruct (H1 (conj D' D)) as (m & r & Pt & M & Tr & _). clear H1 H2.
      assert (length (text r) < budget) as Lr. { rewrite T, !app_length in Lb. rewrite Tr, !app_length. unfold char in *. lia. }
      destruct (spaced_op_exact LP budget r Lr) as [K _].
      destruct (K o rest) as (q & Po & Tq & _).
      { exists sp, sp'. repeat split; auto; try apply S1; try apply S2. now apply term_breaks_no_space. }
      assert (tm d q = Panic) as Pq.
      { apply (term_breaks_panics d IH); rewrite Tq; auto; rewrite T, !app_length in L, Lb; unfold char in *; lia. }
      destruct (bin_after_term LR expr_from_term expr_from_bin usize_max overflow_checks (closure (tm d)) (spaced_op budget)
          (term_is_forward LP usize_max overflow_checks budget d) (spaced_op_forward LP budget)
          (op_in_range usize_max budget big) s t m ps r (Crash CPanic) budget Pt M) as (tr & _ & _ & Pb).
      { pose proof (pairs_length usize_max big ps cps F). rewrite T, !app_length in Lb. unfold char in *. lia. }
      { eapply sq_crash2; cbn; eauto. }
      { discriminate. }
      cbn in Pb. rewrite expr_parse_eq. cbn [parse BinExpr]. rewrite Pb. reflexivity.
  Qed.

  (** *** It breaks on no others *)
  Definition answers_exactly {O} (p : pfun S O (Miss unit)) (B : list char -> Prop) (s : S) : Prop :=
    (exists r, p s = Ret r) \/ (p s = Panic /\ B (text s)).

  Lemma term_answers_exactly d :
    (forall s, length (text s) < d -> length (text s) < budget -> answers_exactly (ex d) breaks s) ->
    forall s, length (text s) <= d -> length (text s) < budget -> answers_exactly (tm d) term_breaks s.
  Proof.
    intros HE s L Lb. unfold answers_exactly. rewrite (term_parse_eq LP).
    destruct (integer_exact LP usize_max s) as (ds & rest & T & F & G & H1 & H2). specialize (G (NG s)).
    destruct ds as [|c ds].
    2:{ destruct (numeral_exists (c :: ds) F) as [n N]; [discriminate|]. destruct (H2 n N) as [K1 K2].
        destruct (le_lt_dec n usize_max) as [B|B].
        - destruct (K1 B) as (s' & P & _). rewrite P. cbn [bind]. eauto.
        - rewrite (K2 B). right. split; auto. rewrite T. now apply (tb_numeral _ (c :: ds) n). }
    rewrite (H1 eq_refl). cbn [bind].
    pose proof (atom_one LP 40%N s eq_refl) as A1. destruct (text s) as [|c rest1] eqn:Ts.
    { change (opening s = Ret (Err (MkMiss tt) s)) in A1. rewrite A1. cbn [bind]. eauto. }
    destruct (N.eqb_spec c 40) as [->|Nc].
    2:{ change (opening s = if len_utf8 c =? 1 then Ret (Err (MkMiss tt) s) else Panic) in A1. rewrite A1.
        destruct (Nat.eqb_spec (len_utf8 c) 1) as [E|E]; cbn [bind]; [eauto|]. right. split; auto.
        apply tb_wide. now apply wide. }
    destruct A1 as (s1 & P1 & T1 & _). change (opening s = Ret (Ok tt s1)) in P1. rewrite P1. cbn [bind].
    cbn in L, Lb. rewrite <- T1 in *.
    destruct (HE s1) as [[r2 P2]|[P2 Tr]]; try (unfold char in *; lia).
    2:{ rewrite P2. right. split; auto. now apply tb_inside. }
    rewrite P2. cbn [bind]. destruct r2 as [e s2|er l]; [|eauto].
    assert (length (text s1) < budget) as L1 by (unfold char in *; lia).
    destruct (expr_sound LP usize_max overflow_checks budget big d s1 e s2 L1 P2) as (cs & T2 & W & _).
    pose proof (atom_one LP 41%N s2 eq_refl) as A2. destruct (text s2) as [|c2 rest2] eqn:Ts2.
    { change (closing s2 = Ret (Err (MkMiss tt) s2)) in A2. rewrite A2. cbn [bind]. eauto. }
    destruct (N.eqb_spec c2 41) as [->|Nc2].
    - destruct A2 as (s3 & P3 & T3 & _). change (closing s2 = Ret (Ok tt s3)) in P3. rewrite P3. cbn [bind]. eauto.
    - change (closing s2 = if len_utf8 c2 =? 1 then Ret (Err (MkMiss tt) s2) else Panic) in A2. rewrite A2.
      destruct (Nat.eqb_spec (len_utf8 c2) 1) as [E|E]; cbn [bind]; [eauto|]. right. split; auto.
      rewrite T2. apply (tb_close _ e); auto. now apply wide.
  Qed.

  Lemma breaks_after_chain ps cps : Forall2 pair_text ps cps -> forall t ct sp o sp' rest, writes (ETerm t) ct ->
    spaces sp -> spaces sp' -> breaks rest -> breaks (ct ++ concat cps ++ sp ++ [symbol o] ++ sp' ++ rest).
  Proof.
    induction 1 as [|[o2 t2] cp ps cps Hp F IH]; intros t ct sp o sp' rest W S1 S2 B.
    - cbn [concat app]. now apply (b_after _ t).
    - destruct Hp as (sp2 & sp2' & ct2 & S3 & S4 & W2 & ->). cbn [fst snd concat] in *. rewrite <- !app_assoc.
      apply (b_after _ t); auto. now apply (IH t2).
  Qed.

  Lemma expr_answers_exactly d : forall s : S, length (text s) < d -> length (text s) < budget ->
    answers_exactly (ex d) breaks s.
  Proof.
    induction d as [|d IH]; intros s L Lb; [lia|].
    unfold answers_exactly. rewrite expr_parse_eq.
    assert (length (text s) <= d) as L' by lia.
    destruct (term_answers_exactly d IH s L' Lb) as [[[t m|e l] Pt]|[Pt Tr]].
    2:{ cbn [parse BinExpr]. unfold bin_expr_parse, parse_impl. cbn [parse closure]. rewrite Pt. cbn. eauto. }
    2:{ cbn [parse BinExpr]. unfold bin_expr_parse, parse_impl. cbn [parse closure]. rewrite Pt. cbn. right. split; auto. now constructor. }
    pose proof (expr_sound LP usize_max overflow_checks budget big d) as ES.
    destruct (term_sound LP usize_max overflow_checks budget big d s t m ES Lb Pt) as (ct & T1 & W & B).
    assert (length (text m) < budget) as Lm by (rewrite T1, !app_length in Lb; unfold char in *; lia).
    destruct (chain_total (closure (tm d)) (spaced_op budget) budget m) as [(ps & r & M & E)|(ps & r & v & M & E & Hp & Hn)].
    { exfalso. destruct (chain_sound LP usize_max overflow_checks budget big d m ps r ES M Lm) as (cps & F & T2 & _).
      pose proof (pairs_length usize_max big ps cps F). rewrite T2, app_length in Lm. unfold char in *. lia. }
    destruct (chain_sound LP usize_max overflow_checks budget big d m ps r ES M Lm) as (cps & F & T2 & _).
    destruct (bin_after_term LR expr_from_term expr_from_bin usize_max overflow_checks (closure (tm d)) (spaced_op budget)
          (term_is_forward LP usize_max overflow_checks budget d) (spaced_op_forward LP budget)
          (op_in_range usize_max budget big) s t m ps r v budget Pt M E Hp Hn) as (tr & _ & _ & Pb).
    destruct v as [o q|e|e|k].
    - exfalso. eapply Hn. reflexivity.
    - cbn in Pb. cbn [parse BinExpr]. rewrite Pb. cbn. eauto.
    - destruct Pb as [_ [l Pb]]. cbn [parse BinExpr] in *. rewrite Pb. cbn. eauto.
    - assert (length (text r) < budget) as Lr by (rewrite T2, app_length in Lm; unfold char in *; lia).
      assert (k = CPanic /\ exists sp o sp' rest, spaces sp /\ spaces sp' /\ term_breaks rest /\
                text r = sp ++ [symbol o] ++ sp' ++ rest) as [-> (sp & o & sp' & rest & S1 & S2 & Br & T3)].
      { inversion Hp as [| | |s0 k0 Ho| | |s0 o q k0 Ho Ht]; subst.
        - exfalso. destruct (spaced_op_sound LP budget r _ Lr eq_refl) as [(o & q & E' & _)|(er & l & E' & _)];
            destruct k; unfold behaves in Ho; rewrite Ho in E'; discriminate.
        - unfold behaves in Ho. destruct (spaced_op_sound LP budget r _ Lr Ho) as [(o' & q' & E' & Fo & _)|(er & l & E' & _)]; [|discriminate].
          injection E' as <- <-. apply op_follows_text in Fo. destruct Fo as (sp & sp' & S1 & S2 & T3).
          assert (length (text q) <= d) as Lq.
          { rewrite T1, T2, T3, !app_length in L'. unfold char in *. lia. }
          assert (length (text q) < budget) as Lq'.
          { rewrite T3, !app_length in Lr. unfold char in *. lia. }
          destruct (term_answers_exactly d IH q Lq Lq') as [[r' P']|[P' Tr]].
          + destruct k; unfold behaves in Ht; cbn [parse closure] in Ht; rewrite Ht in P'; discriminate.
          + split; [destruct k; unfold behaves in Ht; cbn [parse closure] in Ht; rewrite Ht in P'; congruence|].
            exists sp, o, sp', (text q). auto. }
      right. cbn in Pb. cbn [parse BinExpr]. rewrite Pb. split; auto. rewrite T1, T2, T3.
      eapply breaks_after_chain; eauto. now constructor.
  Qed.

  (** A text that starts with an expression is not refused. *)
  Lemma expr_not_refused d (s : S) : length (text s) < d -> length (text s) < budget -> starts_expression (text s) ->
    (exists e s', ex d s = Ret (Ok e s')) \/ ex d s = Panic.
  Proof.
    destruct d as [|d]; intros Ld Lb (e & cs & rest & T & W); [lia|].
    apply writes_chain in W. destruct W as (tr & t & ct & ps & cps & _ & _ & _ & W & F & ->).
    destruct (chain_extend usize_max big ps cps F t ct rest W) as (t2 & ct2 & ps2 & cps2 & rest2 & W2 & F2 & E & St & L).
    rewrite <- app_assoc, E in T.
    assert (length (ct2 ++ concat cps2) <= d) as Ln.
    { rewrite T, !app_length in Ld. rewrite app_length. unfold char in *. lia. }
    destruct (expr_start LP usize_max overflow_checks budget big NG d d s t2 ct2 ps2 cps2 rest2
      (expr_complete LP usize_max overflow_checks budget big NG d) T W2 F2 St Ln Lb) as [H1 H2].
    assert ({Forall (fun p : Op * Term => term_fits usize_max (snd p)) ps2} + {~ Forall (fun p : Op * Term => term_fits usize_max (snd p)) ps2}) as D.
    { apply Forall_dec. intros p. apply term_fits_dec. }
    destruct D as [D|D]; [|right; apply H2; tauto]. destruct (term_fits_dec usize_max t2) as [D'|D']; [|right; apply H2; tauto].
    destruct (H1 (conj D' D)) as (m & r & Pt & M & Tr & _). clear H1 H2.
    destruct (expr_answers_exactly (Datatypes.S d) s Ld Lb) as [[[e0 s0|er l] P]|[P _]]; eauto.
    exfalso. rewrite expr_parse_eq in P.
    pose proof (expr_sound LP usize_max overflow_checks budget big d) as ES.
    assert (length (text m) < budget) as Lm.
    { destruct (term_sound LP usize_max overflow_checks budget big d s t2 m ES Lb Pt) as (ctm & Tm & _).
      rewrite Tm, !app_length in Lb. unfold char in *. lia. }
    destruct (chain_total (closure (tm d)) (spaced_op budget) budget m) as [(ps0 & r0 & M0 & E0)|(ps0 & r0 & v & M0 & E0 & Hp & Hn)].
    { destruct (chain_sound LP usize_max overflow_checks budget big d m ps0 r0 ES M0 Lm) as (cps0 & F0 & T0 & _).
      pose proof (pairs_length usize_max big ps0 cps0 F0). rewrite T0, app_length in Lm. unfold char in *. lia. }
    destruct (bin_after_term LR expr_from_term expr_from_bin usize_max overflow_checks (closure (tm d)) (spaced_op budget)
          (term_is_forward LP usize_max overflow_checks budget d) (spaced_op_forward LP budget)
          (op_in_range usize_max budget big) s t2 m ps0 r0 v budget Pt M0 E0 Hp Hn) as (tr0 & _ & _ & Pb).
    destruct v as [o q|e0|e0|k].
    - eapply Hn. reflexivity.
    - cbn in Pb. cbn [parse BinExpr] in P. rewrite Pb in P. discriminate.
    - destruct Pb as [Tm _]. destruct e0 as [e0|e0]; cbn in Tm.
      + destruct e0 as [[e0|e0]|e0]; discriminate.
      + discriminate.
    - destruct k; cbn in Pb; cbn [parse BinExpr] in P; rewrite Pb in P; discriminate.
  Qed.

  Theorem expr_exact d (s : S) : length (text s) < d -> length (text s) < budget ->
    (ex d s = Panic <-> breaks (text s)) /\
    ((exists e s', ex d s = Ret (Ok e s')) <-> ~ breaks (text s) /\ starts_expression (text s)) /\
    ((exists m s', ex d s = Ret (Err m s')) <-> ~ breaks (text s) /\ ~ starts_expression (text s)).
  Proof.
    intros Ld Lb. pose proof (expr_breaks_panics d s Ld Lb) as K1. pose proof (expr_not_refused d s Ld Lb) as K2.
    pose proof (expr_sound LP usize_max overflow_checks budget big d s) as K3.
    destruct (expr_answers_exactly d s Ld Lb) as [[[e s'|m l] P]|[P B]]; rewrite P in *; split; [|split| |split| |split].
    - split; [discriminate|]. intros B. now apply K1.
    - split; [intros _; split|eauto].
      + intros B. specialize (K1 B). discriminate.
      + destruct (K3 e s' Lb eq_refl) as (cs & T & W & _). exists e, cs, (text s'). auto.
    - split; [intros (? & ? & [=])|]. intros [_ N]. exfalso. apply N.
      destruct (K3 e s' Lb eq_refl) as (cs & T & W & _). exists e, cs, (text s'). auto.
    - split; [discriminate|]. intros B. now apply K1.
    - split; [intros (? & ? & [=])|]. intros [_ Se]. destruct (K2 Se) as [(? & ? & [=])|[=]].
    - split; [intros _; split|eauto].
      + intros B. specialize (K1 B). discriminate.
      + intros Se. destruct (K2 Se) as [(? & ? & [=])|[=]].
    - split; auto.
    - split; [intros (? & ? & [=])|]. tauto.
    - split; [intros (? & ? & [=])|]. tauto.
  Qed.
End Exact.
