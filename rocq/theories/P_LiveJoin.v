(** * P_LiveJoin: joined parsers on the runner's sequence, property C82. *)
From Coq Require Import Lia.
From Verif Require Import L_LiveJoin P_Runner P_Live.

Section Joined.
  Context {T : Type} (eqb : T -> T -> bool).
  Hypothesis eq_ok : decides_eq eqb.
  Variable modulus : nat.

  Lemma run_meaning O E (p : lparser T O E) x b h r : runs eqb modulus p x b h r -> well_made p ->
    forall q, version x < modulus -> ahead (sh_heap x) (sh_tail x) b q ->
    match r with
    | Took o x' b' => version x' < modulus /\
        exists s', on eqb p (q ++ appended h) = Ret (Ok o (Chunked s')) /\ same_ahead x' b' s'
    | Failed e x' b' => version x' < modulus /\
        exists add1 add2 s', appended h = add1 ++ add2 /\
          on eqb p (q ++ add1) = Ret (Err e (Chunked s')) /\ same_ahead x' b' (s' ++ add2)
    end.
  Proof.
    intros R. induction R as [x b h r R|y x b h r R|pat x b h r R|O l x b h r R
      |O0 E0 O1 E1 p0 p1 x b h0 o0 x0 b0 h1 o1 x1 b1 R0 IH0 R1 IH1
      |O0 E0 O1 E1 p0 p1 x b h e x0 b0 R0 IH0
      |O0 E0 O1 E1 p0 p1 x b h0 o0 x0 b0 h1 e x1 b1 R0 IH0 R1 IH1
      |O E U p f x b h o x0 b0 R IH|O E U p f x b h e x0 b0 R IH
      |O E U p f x b h o x0 b0 R IH|O E U p f x b h e x0 b0 R IH
      |O E O' E' from p f x b h o o' x0 b0 R IH F|O E O' E' from p f x b h o e x0 b0 R IH F
      |O E O' E' from p f x b h e x0 b0 R IH
      |T0 T1 U E i0 i1 p x b h o x0 b0 R IH|T0 T1 U E i0 i1 p x b h e x0 b0 R IH
      |O T0 T1 U i0 i1 p x b h o x0 b0 R IH|O T0 T1 U i0 i1 p x b h e x0 b0 R IH
      |O E p x b h r R IH|O E p x b h r R IH|O E o x b|O E e x b
      |O E O' E' from p c x b h0 o x0 b0 h1 r R0 IH0 R1 IH1|O E O' E' from p c x b h e x0 b0 R IH]; intros NE q V A.
    - destruct r as [o x' b'|e x' b'].
      + exact (prim_took _ _ _ _ _ V A any_modest _ any_same _ _ _ _ R).
      + exact (prim_failed _ _ _ _ _ V A any_modest _ any_same _ _ _ _ R).
    - destruct r as [o x' b'|e x' b'].
      + exact (prim_took _ _ _ _ _ V A (the_modest eqb eq_ok y) _ (the_same eqb y) _ _ _ _ R).
      + exact (prim_failed _ _ _ _ _ V A (the_modest eqb eq_ok y) _ (the_same eqb y) _ _ _ _ R).
    - destruct r as [o x' b'|e x' b'].
      + exact (prim_took _ _ _ _ _ V A (atom_modest eqb eq_ok pat) _ (atom_same eqb _ _ V pat) _ _ _ _ R).
      + exact (prim_failed _ _ _ _ _ V A (atom_modest eqb eq_ok pat) _ (atom_same eqb _ _ V pat) _ _ _ _ R).
    - destruct NE as (M & _). destruct r as [o x' b'|e x' b'].
      + exact (prim_took _ _ _ _ _ V A M _ (look_same l) _ _ _ _ R).
      + exact (prim_failed _ _ _ _ _ V A M _ (look_same l) _ _ _ _ R).
    - destruct NE as (N0 & N1). destruct (IH0 N0 q V A) as (V0 & s0 & P0 & q0 & A0 & S0).
      destruct (IH1 N1 q0 V0 A0) as (V1 & s1 & P1 & q1 & A1 & S1). split; [auto|].
      rewrite appended_app, app_assoc. unfold on in *. cbn [built parse Join]. unfold join_parse.
      destruct (built_extends eqb eq_ok p0 N0) as (X0 & _). unfold on in X0. rewrite (X0 _ (appended h1) _ _ P0). cbn [bind].
      destruct (built_extends eqb eq_ok p1 N1) as (_ & Y1 & _). unfold on in Y1.
      assert (SQ : solid (q0 ++ appended h1) = solid (s0 ++ appended h1)) by now rewrite !solid_app, S0.
      destruct (Y1 _ _ _ _ SQ P1) as (s2 & -> & S2).
      exists s2. split; [reflexivity|]. exists q1. split; [auto|congruence].
    - destruct NE as (N0 & N1). destruct (IH0 N0 q V A) as (V0 & add1 & add2 & s' & EA & P0 & SA). split; [auto|].
      exists add1, add2, s'. split; [auto|]. split; [|auto]. unfold on in *. cbn [built parse Join]. unfold join_parse. now rewrite P0.
    - destruct NE as (N0 & N1). destruct (IH0 N0 q V A) as (V0 & s0 & P0 & q0 & A0 & S0).
      destruct (IH1 N1 q0 V0 A0) as (V1 & add1 & add2 & s1 & EA & P1 & q1 & A1 & S1). split; [auto|].
      destruct (built_extends eqb eq_ok p0 N0) as (X0 & _). unfold on in X0.
      destruct (built_extends eqb eq_ok p1 N1) as (_ & _ & Y1). unfold on in Y1. unfold on in P0, P1.
      assert (SQ : solid (q0 ++ add1) = solid (s0 ++ add1)) by now rewrite !solid_app, S0.
      destruct (Y1 _ _ _ _ SQ P1) as (s2 & P2 & S2).
      exists (appended h0 ++ add1), add2, s2. rewrite appended_app, EA, app_assoc. split; [auto|].
      split; [|exists q1; split; [auto|now rewrite S1, !solid_app, S2]].
      rewrite app_assoc. unfold on. cbn [built parse Join]. unfold join_parse.
      rewrite (X0 _ add1 _ _ P0). cbn [bind]. now rewrite P2.
    - destruct (IH NE q V A) as (V0 & s0 & P0 & SA). split; [auto|]. exists s0. split; [|auto].
      unfold on in *. cbn [built parse Map]. unfold map_parse. now rewrite P0.
    - destruct (IH NE q V A) as (V0 & add1 & add2 & s' & EA & P0 & SA). split; [auto|].
      exists add1, add2, s'. split; [auto|]. split; [|auto]. unfold on in *. cbn [built parse Map]. unfold map_parse. now rewrite P0.
    - destruct (IH NE q V A) as (V0 & s0 & P0 & SA). split; [auto|]. exists s0. split; [|auto].
      unfold on in *. cbn [built parse MapErr]. unfold map_err_parse. now rewrite P0.
    - destruct (IH NE q V A) as (V0 & add1 & add2 & s' & EA & P0 & SA). split; [auto|].
      exists add1, add2, s'. split; [auto|]. split; [|auto]. unfold on in *. cbn [built parse MapErr]. unfold map_err_parse. now rewrite P0.
    - destruct (IH NE q V A) as (V0 & s0 & P0 & SA). split; [auto|]. exists s0. split; [|auto].
      unfold on in *. cbn [built parse AndThen]. unfold and_then_parse. rewrite P0. cbn [bind]. now rewrite F.
    - destruct (IH NE q V A) as (V0 & s0 & P0 & SA). split; [auto|]. exists (appended h), [], s0. rewrite !app_nil_r.
      split; [auto|]. split; [|auto].
      unfold on in *. cbn [built parse AndThen]. unfold and_then_parse. rewrite P0. cbn [bind]. now rewrite F.
    - destruct (IH NE q V A) as (V0 & add1 & add2 & s' & EA & P0 & SA). split; [auto|].
      exists add1, add2, s'. split; [auto|]. split; [|auto]. unfold on in *. cbn [built parse AndThen]. unfold and_then_parse. now rewrite P0.
    - destruct (IH NE q V A) as (V0 & s0 & P0 & SA). split; [auto|]. exists s0. split; [|auto].
      unfold on in *. cbn [built parse Unify]. unfold unify_parse. now rewrite P0.
    - destruct (IH NE q V A) as (V0 & add1 & add2 & s' & EA & P0 & SA). split; [auto|].
      exists add1, add2, s'. split; [auto|]. split; [|auto]. unfold on in *. cbn [built parse Unify]. unfold unify_parse. now rewrite P0.
    - destruct (IH NE q V A) as (V0 & s0 & P0 & SA). split; [auto|]. exists s0. split; [|auto].
      unfold on in *. cbn [built parse UnifyErr]. unfold unify_err_parse. now rewrite P0.
    - destruct (IH NE q V A) as (V0 & add1 & add2 & s' & EA & P0 & SA). split; [auto|].
      exists add1, add2, s'. split; [auto|]. split; [|auto]. unfold on in *. cbn [built parse UnifyErr]. unfold unify_err_parse. now rewrite P0.
    - exact (IH NE q V A).
    - exact (IH NE q V A).
    - split; [auto|]. exists q. cbn [appended]. rewrite app_nil_r. split; [reflexivity|]. exists q. auto.
    - split; [auto|]. exists [], [], q. split; [reflexivity|]. rewrite !app_nil_r. split; [reflexivity|]. exists q. auto.
    - destruct NE as (N0 & N1). destruct (IH0 N0 q V A) as (V0 & s0 & P0 & q0 & A0 & S0).
      destruct (built_extends eqb eq_ok p N0) as (X0 & _). unfold on in X0, P0.
      destruct (built_extends eqb eq_ok (c o) (N1 o)) as (_ & Y1 & Z1). unfold on in Y1, Z1.
      specialize (IH1 (N1 o) q0 V0 A0). destruct r as [o1 x1 b1|e x1 b1].
      + destruct IH1 as (V1 & s1 & P1 & q1 & A1 & S1). split; [auto|].
        rewrite appended_app, app_assoc. unfold on in *. cbn [built parse closure].
        rewrite (X0 _ (appended h1) _ _ P0). cbn [bind].
        assert (SQ : solid (q0 ++ appended h1) = solid (s0 ++ appended h1)) by now rewrite !solid_app, S0.
        destruct (Y1 _ _ _ _ SQ P1) as (s2 & -> & S2).
        exists s2. split; [reflexivity|]. exists q1. split; [auto|congruence].
      + destruct IH1 as (V1 & add1 & add2 & s1 & EA & P1 & q1 & A1 & S1). split; [auto|].
        assert (SQ : solid (q0 ++ add1) = solid (s0 ++ add1)) by now rewrite !solid_app, S0.
        destruct (Z1 _ _ _ _ SQ P1) as (s2 & P2 & S2).
        exists (appended h0 ++ add1), add2, s2. rewrite appended_app, EA, app_assoc. split; [auto|].
        split; [|exists q1; split; [auto|now rewrite S1, !solid_app, S2]].
        rewrite app_assoc. unfold on. cbn [built parse closure].
        rewrite (X0 _ add1 _ _ P0). cbn [bind]. exact P2.
    - destruct NE as (N0 & N1). destruct (IH N0 q V A) as (V0 & add1 & add2 & s' & EA & P0 & SA). split; [auto|].
      exists add1, add2, s'. split; [auto|]. split; [|auto]. unfold on in *. cbn [built parse closure]. now rewrite P0.
  Qed.

  Context {O E : Type} (p : lparser T O E).
  Hypothesis patterns : well_made p.
  (** The sequence when the parser starts, at any point of its life. *)
  Variables (x0 : @shared T) (b : gbuffer) (q : list (list T)).
  Hypothesis version_small : version x0 < modulus.
  Hypothesis start : ahead (sh_heap x0) (sh_tail x0) b q.

  (** A success is the success on all that was there and has come, all at once;
      the sequence handed back is cut in the same places. *)
  Theorem C82_took h o x b' : runs eqb modulus p x0 b h (Took o x b') ->
    exists s', parse (built eqb p) (Chunked (q ++ appended h)) = Ret (Ok o (Chunked s')) /\ same_ahead x b' s'.
  Proof. intros R. destruct (run_meaning _ _ _ _ _ _ _ R patterns q version_small start) as (_ & H). exact H. Qed.

  (** A failure is the failure on what was there and the first of what has come;
      the rest is still there. *)
  Theorem C82_failed_partial h e x b' : runs eqb modulus p x0 b h (Failed e x b') ->
    exists add1 add2 s', appended h = add1 ++ add2 /\
      parse (built eqb p) (Chunked (q ++ add1)) = Ret (Err e (Chunked s')) /\ same_ahead x b' (s' ++ add2).
  Proof. intros R. destruct (run_meaning _ _ _ _ _ _ _ R patterns q version_small start) as (_ & H). exact H. Qed.

  (** Every primitive parser in it starts on a sequence of which C79 speaks, so
      none of them panics. *)
  Theorem C82_starts x b' : starts eqb modulus p x0 b x b' ->
    version x < modulus /\ exists q', ahead (sh_heap x) (sh_tail x) b' q'.
  Proof.
    intros S. revert patterns q version_small start.
    induction S as [| | | | | ? ? ? ? p0 p1 x b1 h0 o0 x1 b0 x' b2 R S IH | | | | | | | | |? ? ? ? from p0 c x b1 h0 o x1 b0 x' b2 R S IH]; intros NE q0 V A; cbn in NE; eauto.
    - destruct NE as (N0 & N1). eauto.
    - destruct NE as (N0 & N1). destruct (run_meaning _ _ _ _ _ _ _ R N0 q0 V A) as (V1 & s1 & _ & q1 & A1 & _). eauto.
    - destruct NE as (N0 & N1). eauto.
    - destruct NE as (N0 & N1). destruct (run_meaning _ _ _ _ _ _ _ R N0 q0 V A) as (V1 & s1 & _ & q1 & A1 & _). eauto.
  Qed.
  Theorem C82_no_panic x b' O' (l : @looker T O') s : starts eqb modulus p x0 b x b' -> modest l ->
    lreach modulus l x b' s ->
    match s with
    | LLook _ _ s | LMiss _ s => s_pc s <> SPanicked
    | LAdvance _ _ a => a_pc a <> APanicked
    end.
  Proof.
    intros S M R. destruct (C82_starts x b' S) as (V & q' & A). exact (C79_no_panic l modulus x b' q' V A M s R).
  Qed.

  Lemma prim_quiet O' (l : @looker T O') x b1 q1 h r : modest l -> version x < modulus ->
    ahead (sh_heap x) (sh_tail x) b1 q1 -> done_flag x = true -> prim_runs modulus l x b1 h r ->
    appended h = [] /\ match r with Took _ x' _ | Failed _ x' _ => done_flag x' = true end.
  Proof.
    intros M V A D R. destruct R as [h o a L P|b' s L].
    - destruct (C79_waits l modulus x b1 q1 V A M _ L) as (s & n & S & <- & AR & V' & A').
      pose proof (done_stays modulus x b1 s D S) as D'.
      rewrite appended_app, (done_appended modulus x b1 q1 V A s D S), (adone_appended modulus x b1 V (s_sh s) n a D' V' _ A' AR).
      split; [auto|]. exact (adone_stays modulus b1 (s_sh s) n a D' AR).
    - destruct (C79_waits l modulus x b1 q1 V A M _ L) as (_ & S). split.
      + exact (done_appended modulus x b1 q1 V A s D S).
      + exact (done_stays modulus x b1 s D S).
  Qed.
  Lemma run_quiet O' E' (p' : lparser T O' E') x b1 h r : runs eqb modulus p' x b1 h r -> well_made p' ->
    forall q1, version x < modulus -> ahead (sh_heap x) (sh_tail x) b1 q1 -> done_flag x = true ->
    appended h = [] /\ match r with Took _ x' _ | Failed _ x' _ => done_flag x' = true end.
  Proof.
    intros R. induction R; intros NE q1 V A D; cbn in NE; try (eapply IHR; eauto; fail).
    - eapply prim_quiet; eauto. apply any_modest.
    - eapply prim_quiet; eauto. now apply the_modest.
    - eapply prim_quiet; eauto. now apply atom_modest.
    - destruct NE as (M & _). eapply prim_quiet; eauto.
    - destruct NE as (N0 & N1). destruct (IHR1 N0 q1 V A D) as (Q0 & D0).
      destruct (run_meaning _ _ _ _ _ _ _ R1 N0 q1 V A) as (V1 & s1 & _ & q2 & A1 & _).
      destruct (IHR2 N1 q2 V1 A1 D0) as (Q1 & D1). rewrite appended_app, Q0, Q1. auto.
    - destruct NE as (N0 & N1). eapply IHR; eauto.
    - destruct NE as (N0 & N1). destruct (IHR1 N0 q1 V A D) as (Q0 & D0).
      destruct (run_meaning _ _ _ _ _ _ _ R1 N0 q1 V A) as (V1 & s1 & _ & q2 & A1 & _).
      destruct (IHR2 N1 q2 V1 A1 D0) as (Q1 & D1). rewrite appended_app, Q0, Q1. auto.
    - auto.
    - auto.
    - destruct NE as (N0 & N1). destruct (IHR1 N0 q1 V A D) as (Q0 & D0).
      destruct (run_meaning _ _ _ _ _ _ _ R1 N0 q1 V A) as (V1 & s1 & _ & q2 & A1 & _).
      destruct (IHR2 (N1 o) q2 V1 A1 D0) as (Q1 & D1). rewrite appended_app, Q0, Q1. auto.
    - destruct NE as (N0 & N1). eapply IHR; eauto.
  Qed.

  (** On a source that is done when it starts it answers as on the segments
      given all at once. *)
  Theorem C82_complete h r : done_flag x0 = true -> runs eqb modulus p x0 b h r ->
    match r with
    | Took o x b' => exists s', parse (built eqb p) (Chunked q) = Ret (Ok o (Chunked s')) /\ same_ahead x b' s'
    | Failed e x b' => exists s', parse (built eqb p) (Chunked q) = Ret (Err e (Chunked s')) /\ same_ahead x b' s'
    end.
  Proof.
    intros D R. destruct (run_quiet _ _ _ _ _ _ _ R patterns q version_small start D) as (Q & _).
    destruct r as [o x b'|e x b'].
    - destruct (C82_took _ _ _ _ R) as (s' & P & S). rewrite Q, app_nil_r in P. eauto.
    - destruct (C82_failed_partial _ _ _ _ R) as (a1 & a2 & s' & EA & P & S). rewrite Q in EA.
      symmetry in EA. apply app_eq_nil in EA. destruct EA as (-> & ->). rewrite app_nil_r in P, S. eauto.
  Qed.

  Lemma prim_ends O' (l : @looker T O') x b1 q1 : modest l -> version x < modulus ->
    ahead (sh_heap x) (sh_tail x) b1 q1 -> done_flag x = true -> exists h r, prim_runs modulus l x b1 h r.
  Proof.
    intros M V A D. destruct (C79_finishes l modulus x b1 q1 V A M _ D (lr_init modulus l x b1)) as (l' & L & AN).
    assert (R : lreach modulus l x b1 l').
    { assert (X : forall l1 l2, leads modulus l l1 l2 -> lreach modulus l x b1 l1 -> lreach modulus l x b1 l2).
      { induction 1; auto. intros. apply IHleads. econstructor; eauto. }
      eapply X; [exact L|constructor]. }
    destruct l' as [? ? ?|h o a|b' s]; [destruct AN| |].
    - eexists _, _. exact (pr_took R AN).
    - eexists _, _. exact (pr_failed R).
  Qed.
End Joined.

(** It gets to its answer by itself once the source is done. *)
Theorem C82_finishes {T} (eqb : T -> T -> bool) (eq_ok : decides_eq eqb) modulus O E (p : lparser T O E) :
  well_made p -> forall x b q, version x < modulus -> ahead (sh_heap x) (sh_tail x) b q ->
  done_flag x = true -> exists h r, runs eqb modulus p x b h r.
Proof.
  induction p as [|y|pat|O l|O0 E0 O1 E1 p0 IH0 p1 IH1|O E U p IH f|O E U p IH f|O E O' E' from p IH f|T0 T1 U E i0 i1 p IH|O T0 T1 U i0 i1 p IH|O E p IH|O E p IH|O E o0|O E e0|O E O' E' from p IH c IHc]; intros NE x b q V A D; cbn in NE.
  - destruct (prim_ends modulus _ _ x b q any_modest V A D) as (h & r & R). eexists _, _. constructor. exact R.
  - destruct (prim_ends modulus _ _ x b q (the_modest eqb eq_ok y) V A D) as (h & r & R). eexists _, _. constructor. exact R.
  - destruct (prim_ends modulus _ _ x b q (atom_modest eqb eq_ok pat) V A D) as (h & r & R). eexists _, _. constructor. exact R.
  - destruct NE as (M & _). destruct (prim_ends modulus _ l x b q M V A D) as (h & r & R). eexists _, _. constructor. exact R.
  - destruct NE as (N0 & N1). destruct (IH0 N0 x b q V A D) as (h0 & [o0 x0 b0|e x0 b0] & R0); [|eexists _, _; eapply run_join_first; eauto].
    destruct (run_meaning eqb eq_ok modulus _ _ _ _ _ _ _ R0 N0 q V A) as (V1 & s1 & _ & q2 & A1 & _).
    destruct (run_quiet eqb eq_ok modulus _ _ _ _ _ _ _ R0 N0 q V A D) as (_ & D1).
    destruct (IH1 N1 x0 b0 q2 V1 A1 D1) as (h1 & [o1 x1 b1|e x1 b1] & R1); eexists _, _.
    + eapply run_join; eauto.
    + eapply run_join_last; eauto.
  - destruct (IH NE x b q V A D) as (h & [o x0 b0|e x0 b0] & R); eexists _, _; [eapply run_map|eapply run_map_fails]; eauto.
  - destruct (IH NE x b q V A D) as (h & [o x0 b0|e x0 b0] & R); eexists _, _; [eapply run_map_err|eapply run_map_err_fails]; eauto.
  - destruct (IH NE x b q V A D) as (h & [o x0 b0|e x0 b0] & R).
    + destruct (f o) eqn:F; eexists _, _; [eapply run_and_then|eapply run_and_then_refused]; eauto.
    + eexists _, _. eapply run_and_then_fails; eauto.
  - destruct (IH NE x b q V A D) as (h & [o x0 b0|e x0 b0] & R); eexists _, _; [eapply run_unify|eapply run_unify_fails]; eauto.
  - destruct (IH NE x b q V A D) as (h & [o x0 b0|e x0 b0] & R); eexists _, _; [eapply run_unify_err|eapply run_unify_err_fails]; eauto.
  - destruct (IH NE x b q V A D) as (h & r & R). eexists _, _. eapply run_ref; eauto.
  - destruct (IH NE x b q V A D) as (h & r & R). eexists _, _. eapply run_boxed; eauto.
  - eexists _, _. apply run_done.
  - eexists _, _. apply run_fail.
  - destruct NE as (N0 & N1). destruct (IH N0 x b q V A D) as (h0 & [o0 x0 b0|e x0 b0] & R0); [|eexists _, _; eapply run_then_fails; eauto].
    destruct (run_meaning eqb eq_ok modulus _ _ _ _ _ _ _ R0 N0 q V A) as (V1 & s1 & _ & q2 & A1 & _).
    destruct (run_quiet eqb eq_ok modulus _ _ _ _ _ _ _ R0 N0 q V A D) as (_ & D1).
    destruct (IHc o0 (N1 o0) x0 b0 q2 V1 A1 D1) as (h1 & r & R1). eexists _, _. eapply run_then; eauto.
Qed.

(** ** C82 as stated is false *)
(** The second of two [any_item] misses although both items are there and the
    source has said that it is done. *)
Theorem C82_failed_refuted modulus : 0 < modulus ->
  exists h (x : @shared nat) b, runs Nat.eqb modulus (PJoin PAny PAny) (fresh [None] 0) buffer_new h (Failed (Last (MkMiss tt)) x b) /\
    appended h = [[6]; [7]] /\ done_flag x = true /\
    (exists s, parse (built Nat.eqb (PJoin PAny PAny)) (Chunked (appended h)) = Ret (Ok (6, 7) s)).
Proof.
  intros M.
  assert (R0 : exists x b h, runs Nat.eqb modulus PAny (fresh [None] 0) buffer_new h (Took 6 x b) /\ appended h = [[6]] /\
    x = Shared [Some ([6], 1); None] 1 0 false false 0 false /\ b = GBuffer 0 1).
  { pose proof (lr_init modulus (@any_looker nat) (fresh (@cons (option (list nat * nat)) None nil) 0) buffer_new) as R. tidy_live R.
    eapply lr_step in R; [|apply lv_loader; eapply (ls_append modulus) with (seg := [6]); reflexivity]. tidy_live R.
    eapply lr_step in R; [|apply lv_poll; [apply ss_next|discriminate]]. tidy_live R.
    eapply lr_step in R; [|apply lv_poll; [apply ss_poll|discriminate]]. tidy_live R.
    eapply lr_step in R; [|apply lv_poll; [apply ss_fut_none|discriminate]]. tidy_live R.
    eapply lr_step in R; [|eapply lv_answer with (r := Some [6]); [eapply ss_next1_some; reflexivity|reflexivity]]. tidy_live R.
    eapply lr_step in R; [|apply lv_advance; [apply as_poll|discriminate]]. tidy_live R.
    eapply lr_step in R; [|apply lv_advance; [apply as_fut_none|discriminate]]. tidy_live R.
    eapply lr_step in R; [|apply lv_advance; [apply as_wait|discriminate]]. tidy_live R.
    eapply lr_step in R; [|apply lv_advance; [apply as_turn; reflexivity|discriminate]]. tidy_live R.
    eapply lr_step in R; [|apply lv_advance; [apply as_last; reflexivity|discriminate]]. tidy_live R.
    eapply lr_step in R; [|apply lv_advance; [apply as_all; reflexivity|discriminate]]. tidy_live R.
    eexists _, _, _. split; [apply run_any; exact (pr_took R eq_refl)|]. repeat split; reflexivity. }
  destruct R0 as (x & b & h & R0 & A0 & -> & ->).
  pose proof (lr_init modulus (@any_looker nat) (Shared [Some ([6], 1); None] 1 0 false false 0 false) (GBuffer 0 1)) as R. tidy_live R.
  eapply lr_step in R; [|apply lv_poll; [apply ss_next|discriminate]]. tidy_live R.
  eapply lr_step in R; [|apply lv_poll; [apply ss_poll|discriminate]]. tidy_live R.
  eapply lr_step in R; [|apply lv_poll; [apply ss_fut_none|discriminate]]. tidy_live R.
  eapply lr_step in R; [|apply lv_poll; [apply ss_next1_none; reflexivity|discriminate]]. tidy_live R.
  eapply lr_step in R; [|apply lv_poll; [apply ss_wait|discriminate]]. tidy_live R.
  eapply lr_step in R; [|apply lv_poll; [apply ss_next2_none; reflexivity|discriminate]]. tidy_live R.
  eapply lr_step in R; [|apply lv_loader; eapply (ls_append modulus) with (seg := [7]); reflexivity]. tidy_live R.
  eapply lr_step in R; [|apply lv_loader, ls_done]. tidy_live R.
  eapply lr_step in R; [|eapply lv_answer with (r := None); [apply ss_done; reflexivity|reflexivity]]. tidy_live R.
  eexists _, _, _. split.
  - eapply run_join_last; [exact R0|]. apply run_any. exact (pr_failed R).
  - rewrite appended_app, A0. repeat split. eexists. reflexivity.
Qed.

(** ** Cases *)
(** On a source that is done, [1] and then the atom [2 3] that begins in the
    same segment; the hypotheses of C82_finishes and C82_complete hold. *)
Definition spec_case : lparser nat (nat * unit) (Either (Miss unit) (Miss unit)) := PJoin PAny (PAtom [2; 3]).
Definition ready : @shared nat := Shared [Some ([1; 2], 1); Some ([3; 4], 2); None] 2 0 true false 0 false.
Example C82_case : exists h x b s',
  runs Nat.eqb 16 spec_case ready buffer_new h (Took (1, tt) x b) /\ same_ahead x b s' /\ concat s' = [3; 4].
Proof.
  assert (V : version ready < 16) by (cbn; lia).
  assert (A : ahead (sh_heap ready) (sh_tail ready) buffer_new [[1; 2]; [3; 4]]).
  { exists [[1; 2]; [3; 4]]. split; [|cbn; auto with arith].
    eapply chain_node; [reflexivity|]. eapply chain_node; [reflexivity|]. now constructor. }
  assert (N : well_made spec_case) by (cbn; split; [auto|discriminate]).
  assert (EQ : decides_eq Nat.eqb) by (intros a b; apply Nat.eqb_eq).
  destruct (C82_finishes Nat.eqb EQ 16 _ _ spec_case N ready buffer_new _ V A eq_refl) as (h & r & R).
  pose proof (C82_complete Nat.eqb EQ 16 spec_case N ready buffer_new _ V A h r eq_refl R) as C.
  destruct r as [o x b|e x b]; destruct C as (s' & P & S); cbn in P; [|discriminate].
  injection P as <- <-. exists h, x, b, [[3; 4]]. split; [exact R|]. split; [|reflexivity].
  destruct S as (q & A' & E). exists q. split; [exact A'|exact E].
Qed.

Print Assumptions C82_took.
Print Assumptions C82_failed_partial.
Print Assumptions C82_starts.
Print Assumptions C82_no_panic.
Print Assumptions C82_complete.
Print Assumptions C82_finishes.
Print Assumptions C82_failed_refuted.
