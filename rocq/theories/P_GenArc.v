(** * P_GenArc: C95, consumed segments are freed; C96, how deep their destructors nest. *)
From Coq Require Import Lia.
From Verif Require Import L_GenSeq L_GenArc.

Local Arguments Nat.ltb : simpl never.
Local Arguments Nat.leb : simpl never.
Local Arguments Nat.eqb : simpl never.

Section Arc.
  Context {T : Type}.
  Implicit Types (s : astate T) (es : list (aevent T)).

  Lemma reach es s : a_run (a_start T) es = Ret s -> exists lo, inv_at lo s.
  Proof. intros R. destruct (a_run_ok es _ _ inv_start) as (s' & lo & E & I & _). rewrite R in E. injection E as <-. eauto. Qed.

  Lemma inv_freed lo s i : inv_at lo s -> (freed s i <-> i < lo).
  Proof.
    intros (I & _). unfold freed. split.
    - intros H. assert (L : i < length (a_arcs s)) by (apply nth_error_Some; congruence). rewrite (c_cells _ _ _ _ I i L) in H.
      destruct (Nat.ltb_spec i lo); [auto|discriminate].
    - intros L. pose proof (c_lo _ _ _ _ I). rewrite (c_cells _ _ _ _ I i) by lia. now rewrite (proj2 (Nat.ltb_lt _ _)).
  Qed.

  (** ** C95 *)
  (** However the two threads interleave, no freed node is touched, none is freed twice, no
      lock is set twice. *)
  Theorem C95_safe es : exists s, a_run (a_start T) es = Ret s.
  Proof. destruct (a_run_ok es _ _ inv_start) as (s' & _ & E & _). eauto. Qed.

  (** At any moment the nodes freed are the first ones, and the items dropped are exactly
      theirs, once and in order. *)
  Theorem C95_once es s : a_run (a_start T) es = Ret s ->
    exists k, (forall i, freed s i <-> i < k) /\ lost s = concat (firstn k (made s)).
  Proof.
    intros R. destruct (reach es s R) as (lo & I). exists lo. split; [intros i; now apply inv_freed|]. apply I.
  Qed.

  (** What the buffer has not passed is there, with what was committed. *)
  Theorem C95_readable es s f i xs : a_run (a_start T) es = Ret s -> first_readable s = Some f -> f <= i ->
    nth_error (made s) i = Some xs ->
    exists n, nth_error (a_arcs s) i = Some (Some (Cell (S n) (Some (xs, S i)))).
  Proof.
    intros R F L N. destruct (reach es s R) as (lo & I & _).
    assert (C : 0 < cnt f (brefs (a_buf s) ++ lrefs (a_load s))).
    { unfold first_readable in F. destruct (a_buf s); try discriminate; injection F as <-; cbn; rewrite Nat.eqb_refl; lia. }
    destruct (c_in _ _ _ _ I f C) as (L1 & L2). assert (LS : i < length (made s)) by (apply nth_error_Some; congruence).
    pose proof (c_segs _ _ _ _ I). rewrite (c_cells _ _ _ _ I i) by lia. rewrite (proj2 (Nat.ltb_ge _ _)) by lia. unfold content. rewrite N.
    unfold refs. destruct (Nat.ltb_spec lo i).
    - rewrite (proj2 (Nat.leb_le _ _)) by lia. cbn. eauto.
    - assert (i = f) as -> by lia. destruct (cnt f _); [lia|]. cbn. eauto.
  Qed.

  (** Between calls exactly what nobody needs any more is freed: everything before the head
      of the buffer; without the buffer everything before the tail; without both, everything. *)
  Theorem C95_settled es s : a_run (a_start T) es = Ret s -> settled s ->
    (forall i, freed s i <-> i < first_needed s) /\ lost s = concat (firstn (first_needed s) (made s)).
  Proof.
    intros R (SB & SL). destruct (reach es s R) as (lo & IV).
    assert (E : lo = first_needed s).
    { destruct IV as (I & B & L & _). pose proof (c_first _ _ _ _ I) as CF. pose proof (c_in _ _ _ _ I) as CI.
      pose proof (c_lo _ _ _ _ I) as CL. unfold first_needed.
      destruct (a_buf s) as [b| | | |[?|]]; try contradiction; destruct (a_load s) as [t| | | | |[?|]]; try contradiction;
        cbn [brefs lrefs opt_refs app cnt b_ok l_ok] in *.
      - destruct (CI (head_node b)) as (X1 & X2); [rewrite Nat.eqb_refl; lia|]. specialize (CF ltac:(lia)).
        destruct (CI t) as (X3 & X4); [rewrite Nat.eqb_refl; lia|].
        destruct (Nat.eqb_spec (head_node b) lo), (Nat.eqb_spec t lo); lia.
      - destruct (CI (head_node b)) as (X1 & X2); [rewrite Nat.eqb_refl; lia|]. specialize (CF ltac:(lia)).
        destruct (Nat.eqb_spec (head_node b) lo); lia.
      - destruct (CI t) as (X3 & X4); [rewrite Nat.eqb_refl; lia|]. specialize (CF ltac:(lia)). destruct (Nat.eqb_spec t lo); lia.
      - destruct (Nat.lt_ge_cases lo (length (a_arcs s))) as [Q|Q]; [specialize (CF Q)|]; lia. }
    subst lo. split; [intros i; now apply inv_freed|]. apply IV.
  Qed.

  (** Nothing keeps a call from ending. *)
  Definition todo_buffer s : nat :=
    let k := length (a_arcs s) in
    match a_buf s with
    | BIdle _ | BGone None => 0
    | BWalk b a => (k - ad_node a) + (2 + (k - head_node b))
    | BCloned b _ => S (k - head_node b)
    | BDrop _ p _ | BGone (Some (p, _)) => k - p
    end.
  Definition todo_loader s : nat :=
    match a_load s with
    | LIdle _ | LGone None => 0
    | LNew _ _ _ => 5 | LCloned _ _ _ => 4 | LSet _ _ => 3
    | LDrop _ _ 0 => 2 | LDrop _ _ _ => 1
    | LGone (Some _) => 1
    end.

  Lemma drop_len (h : arcs T) p d h' q xs : arc_drop h p d = Ret (h', q, xs) -> length h' = length h.
  Proof.
    unfold arc_drop. destruct (deref h p) as [c| | |]; cbn [bind]; try discriminate.
    destruct (strong c) as [|[|n]]; [discriminate| |].
    - destruct (lock c) as [[? ?]|]; intros E; injection E as <- <- <-; apply set_length.
    - intros E; injection E as <- <- <-; apply set_length.
  Qed.

  Lemma drop_depth (h : arcs T) p d h' p' d' xs : arc_drop h p d = Ret (h', Some (p', d'), xs) -> d' = S d.
  Proof.
    unfold arc_drop. destruct (deref h p) as [c| | |]; cbn [bind]; try discriminate.
    destruct (strong c) as [|[|n]]; try discriminate. destruct (lock c) as [[? ?]|]; intros E; injection E; auto; discriminate.
  Qed.

  Lemma buffer_ends n : forall lo s, inv_at lo s -> todo_buffer s <= n ->
    exists s' lo', a_run s (repeat StepBuffer n) = Ret s' /\ inv_at lo' s' /\ a_load s' = a_load s
      /\ match a_buf s' with BIdle _ | BGone None => True | _ => False end.
  Proof.
    induction n as [|n IH]; intros lo s IV TD; cbn [repeat a_run].
    - exists s, lo. split; [auto|]. split; [auto|]. split; [auto|].
      destruct IV as (I & B & L & _). pose proof (c_in _ _ _ _ I) as CI. unfold todo_buffer in TD.
      destruct (a_buf s) as [b|b a|b a|b p d|[(p, d)|]]; cbn [brefs opt_refs app cnt] in *; auto; try lia.
      + specialize (CI p). rewrite Nat.eqb_refl in CI. lia.
      + specialize (CI p). rewrite Nat.eqb_refl in CI. lia.
    - destruct (a_step_ok lo s StepBuffer IV) as (s1 & lo1 & E1 & I1 & _). rewrite E1. cbn [bind].
      assert (X : todo_buffer s1 <= n /\ a_load s1 = a_load s).
      { destruct IV as (I & B & L & LG). pose proof (c_in _ _ _ _ I) as CI. pose proof (c_segs _ _ _ _ I) as SG.
        cbn [a_step] in E1. unfold step_buffer in E1. unfold todo_buffer in *.
        destruct (a_buf s) as [b|b a|b a|b p d|[(p, d)|]] eqn:EB; cbn [brefs opt_refs app cnt b_ok] in *.
        - injection E1 as <-. rewrite EB. split; [lia|auto].
        - destruct (deref _ _); cbn [bind] in E1; try discriminate. unfold adv_turn in E1.
          assert (AL : lo <= ad_node a < length (a_arcs s)) by (specialize (CI (head_node b)); rewrite Nat.eqb_refl in CI; lia).
          rewrite (counted_view _ _ _ _ _ I AL) in E1. unfold content in E1.
          assert (CLN : forall a', (h' <- arc_clone (a_arcs s) (ad_node a') ;; Ret (AState h' (BCloned b a') (a_load s) (made s) (lost s))) = Ret s1 ->
            length (a_arcs s1) = length (a_arcs s) /\ a_buf s1 = BCloned b a' /\ a_load s1 = a_load s).
          { intros a'. unfold arc_clone. destruct (deref _ _); cbn [bind]; try discriminate. intros Q; injection Q as <-. cbn. now rewrite set_length. }
          destruct (nth_error (made s) (ad_node a)) as [xs|].
          + unfold usub in E1. destruct (_ <=? _); cbn [bind] in E1; try discriminate. destruct (_ <? _); cbn [bind] in E1.
            * destruct (CLN _ E1) as (-> & -> & ->). split; [lia|auto].
            * injection E1 as <-. cbn. split; [lia|auto].
          + cbn [bind] in E1. destruct (CLN _ E1) as (-> & -> & ->). split; [lia|auto].
        - injection E1 as <-. cbn. split; [lia|auto].
        - destruct (arc_drop (a_arcs s) p d) as [[[h' q] xs]| | |] eqn:D; cbn [bind] in E1; try discriminate. injection E1 as <-.
          cbn [a_arcs a_buf a_load]. pose proof (drop_len _ _ _ _ _ _ D) as DL. split; [|auto]. destruct q as [(p', d')|]; [|lia].
          specialize (CI p). rewrite Nat.eqb_refl in CI.
          destruct (drop_in_buffer lo s [head_node b] p d) as (h2 & q2 & xs2 & lo2 & E2 & _ & _ & _ & _ & Q); auto; try lia.
          + eapply counted_ext; [|exact I]. intros i. cbn. lia.
          + rewrite D in E2. injection E2 as <- <- <-. lia.
        - destruct (arc_drop (a_arcs s) p d) as [[[h' q] xs]| | |] eqn:D; cbn [bind] in E1; try discriminate. injection E1 as <-.
          cbn [a_arcs a_buf a_load]. pose proof (drop_len _ _ _ _ _ _ D) as DL. split; [|auto]. destruct q as [(p', d')|]; [|lia].
          specialize (CI p). rewrite Nat.eqb_refl in CI.
          destruct (drop_in_buffer lo s [] p d) as (h2 & q2 & xs2 & lo2 & E2 & _ & _ & _ & _ & Q); auto; try lia.
          rewrite D in E2. injection E2 as <- <- <-. lia.
        - injection E1 as <-. rewrite EB. split; [lia|auto]. }
      destruct X as (TD1 & AL). destruct (IH lo1 s1 I1 TD1) as (s2 & lo2 & A & A2 & A3 & A4). exists s2, lo2.
      split; [exact A|]. split; [exact A2|]. split; [congruence|exact A4].
  Qed.

  Lemma loader_ends n : forall lo s, inv_at lo s -> todo_loader s <= n ->
    exists s' lo', a_run s (repeat StepLoader n) = Ret s' /\ inv_at lo' s' /\ a_buf s' = a_buf s
      /\ match a_load s' with LIdle _ | LGone None => True | _ => False end.
  Proof.
    induction n as [|n IH]; intros lo s IV TD; cbn [repeat a_run].
    - exists s, lo. split; [auto|]. split; [auto|]. split; [auto|]. unfold todo_loader in TD.
      destruct (a_load s) as [t|t m xs|t m xs|t m|t p [|d]|[(p, d)|]]; auto; lia.
    - destruct (a_step_ok lo s StepLoader IV) as (s1 & lo1 & E1 & I1 & _). rewrite E1. cbn [bind].
      assert (X : todo_loader s1 <= n /\ a_buf s1 = a_buf s).
      { destruct I1 as (_ & _ & L1 & _). cbn [a_step] in E1. unfold step_loader in E1. destruct IV as (_ & _ & L & _). unfold todo_loader in *.
        destruct (a_load s) as [t|t m xs|t m xs|t m|t p d|[(p, d)|]] eqn:EL.
        - injection E1 as <-. rewrite EL. split; [lia|auto].
        - destruct (arc_clone _ _); cbn [bind] in E1; try discriminate. injection E1 as <-. cbn. split; [lia|auto].
        - destruct (lock_set _ _ _); cbn [bind] in E1; try discriminate. injection E1 as <-. cbn. split; [lia|auto].
        - injection E1 as <-. cbn. split; [lia|auto].
        - destruct (arc_drop _ _ _) as [[[h' q] xs]| | |] eqn:D; cbn [bind] in E1; try discriminate. injection E1 as <-. cbn in *.
          split; [|auto]. destruct q as [(p', d')|]; [|destruct d; lia]. apply drop_depth in D. subst d'. cbn in L1. destruct d; lia.
        - destruct (arc_drop _ _ _) as [[[h' q] xs]| | |] eqn:D; cbn [bind] in E1; try discriminate. injection E1 as <-. cbn in *.
          split; [|auto]. destruct q as [(p', d')|]; [|lia]. apply drop_depth in D. cbn in L1. lia.
        - injection E1 as <-. rewrite EL. split; [lia|auto]. }
      destruct X as (TD1 & AL). destruct (IH lo1 s1 I1 TD1) as (s2 & lo2 & A & A2 & A3 & A4). exists s2, lo2.
      split; [exact A|]. split; [exact A2|]. split; [congruence|exact A4].
  Qed.

  Lemma a_run_app es1 es2 : forall s, a_run s (es1 ++ es2) = (s' <- a_run s es1 ;; a_run s' es2).
  Proof. induction es1 as [|e es1 IH]; intros s; cbn [app a_run]; [reflexivity|]. destruct (a_step s e); cbn [bind]; auto. Qed.

  (** From wherever the threads are, letting each go on for a while ends their calls. *)
  Theorem C95_settles es s : a_run (a_start T) es = Ret s ->
    exists m n s', a_run (a_start T) (es ++ repeat StepBuffer m ++ repeat StepLoader n) = Ret s' /\ settled s'.
  Proof.
    intros R. destruct (reach es s R) as (lo & I).
    destruct (buffer_ends (todo_buffer s) lo s I (le_n _)) as (s1 & lo1 & R1 & I1 & _ & B1).
    destruct (loader_ends (todo_loader s1) lo1 s1 I1 (le_n _)) as (s2 & lo2 & R2 & I2 & AB & L2).
    exists (todo_buffer s), (todo_loader s1), s2. rewrite a_run_app, R. cbn [bind]. rewrite a_run_app, R1. cbn [bind].
    split; [exact R2|]. split; [now rewrite AB|exact L2].
  Qed.

  (** ** C96 *)
  (** What holds: destructors of the loader nest at most once, those of the buffer no deeper
      than there are segments. *)
  Theorem C96_bound_partial es s : a_run (a_start T) es = Ret s ->
    depth_loader s <= 1 /\ depth_buffer s <= length (made s).
  Proof.
    intros R. destruct (reach es s R) as (lo & _ & B & L & _). split.
    - unfold depth_loader. destruct (a_load s) as [t|t m xs|t m xs|t m|t p d|[(p, d)|]]; cbn in L; lia.
    - unfold depth_buffer. destruct (a_buf s) as [b|b a|b a|b p d|[(p, d)|]]; cbn in B; lia.
  Qed.

  (** No call on the buffer begins. *)
  Definition no_call (e : aevent T) : Prop := match e with CallAdvance _ | DropBuffer => False | _ => True end.

  (** An [advance] that leaves node [f] for another nests as many as it passes, at most, whatever
      the loader does meanwhile. *)
  Definition since (f : nat) (b : bstate) : Prop :=
    match b with
    | BWalk b _ | BCloned b _ => head_node b = f
    | BDrop b p d => p = f + d
    | BIdle _ | BGone _ => True
    end.
  Lemma since_run f es : Forall no_call es -> forall lo s s', inv_at lo s -> a_run s es = Ret s' -> since f (a_buf s) -> since f (a_buf s').
  Proof.
    induction 1 as [|e es NC _ IH]; intros lo s s' IV R SF; cbn [a_run] in R; [congruence|].
    destruct (a_step_ok lo s e IV) as (s1 & lo1 & E1 & I1 & _). rewrite E1 in R. cbn [bind] in R. apply (IH lo1 s1 s' I1 R).
    destruct e as [n| | |xs| |]; try contradiction; cbn [a_step] in E1.
    - unfold step_buffer in E1. destruct IV as (I & B & L & LG). destruct (a_buf s) as [b|b a|b a|b p d|[(p, d)|]] eqn:EB; cbn in SF.
      + injection E1 as <-. now rewrite EB.
      + destruct (deref _ _); cbn [bind] in E1; try discriminate. destruct (adv_turn _ _) as [[a'|a']| | |]; cbn [bind] in E1; try discriminate.
        * injection E1 as <-. exact SF.
        * destruct (arc_clone _ _); cbn [bind] in E1; try discriminate. injection E1 as <-. exact SF.
      + injection E1 as <-. cbn. lia.
      + destruct (arc_drop _ _ _) as [[[h' q] xs]| | |] eqn:D; cbn [bind] in E1; try discriminate. injection E1 as <-. cbn [a_buf].
        destruct q as [(p', d')|]; [|exact Logic.I]. cbn [since b_ok brefs app] in *.
        destruct (drop_in_buffer lo s [head_node b] p d) as (h2 & q2 & xs2 & lo2 & E2 & _ & _ & _ & _ & Q); auto; try lia.
        * eapply counted_ext; [|exact I]. intros i. cbn. lia.
        * rewrite D in E2. injection E2 as <- <- <-. lia.
      + destruct (arc_drop _ _ _) as [[[h' q] xs]| | |]; cbn [bind] in E1; try discriminate. injection E1 as <-. exact Logic.I.
      + injection E1 as <-. now rewrite EB.
    - destruct (a_load s); try (injection E1 as <-; exact SF); try (destruct (arc_new _); injection E1 as <-; exact SF).
    - destruct (a_load s); injection E1 as <-; exact SF.
    - unfold step_loader in E1. destruct (a_load s) as [t|t m ys|t m ys|t m|t p d|[(p, d)|]]; try (injection E1 as <-; exact SF).
      + destruct (arc_clone _ _); cbn [bind] in E1; try discriminate. injection E1 as <-; exact SF.
      + destruct (lock_set _ _ _); cbn [bind] in E1; try discriminate. injection E1 as <-; exact SF.
      + destruct (arc_drop _ _ _) as [[[? ?] ?]| | |]; cbn [bind] in E1; try discriminate. injection E1 as <-; exact SF.
      + destruct (arc_drop _ _ _) as [[[? ?] ?]| | |]; cbn [bind] in E1; try discriminate. injection E1 as <-; exact SF.
  Qed.

  Theorem C96_call_partial es0 s b n es s' b' p d : a_run (a_start T) es0 = Ret s -> a_buf s = BIdle b ->
    Forall no_call es -> a_run s (CallAdvance n :: es) = Ret s' -> a_buf s' = BDrop b' p d ->
    depth_buffer s' <= head_node b' - head_node b.
  Proof.
    intros R0 EB NC R EB'. destruct (reach es0 s R0) as (lo & IV). cbn [a_run a_step] in R. rewrite EB in R. cbn [bind] in R.
    set (s1 := AState _ _ _ _ _) in R.
    assert (I1 : exists lo1, inv_at lo1 s1).
    { destruct (a_step_ok lo s (CallAdvance n) IV) as (s1' & lo1 & E1 & I1 & _). cbn [a_step] in E1. rewrite EB in E1. injection E1 as <-. eauto. }
    destruct I1 as (lo1 & I1).
    pose proof (since_run (head_node b) es NC lo1 s1 s' I1 R eq_refl) as SN. rewrite EB' in SN. cbn in SN.
    destruct (a_run_ok es lo1 s1 I1) as (s2 & lo2 & E2 & (_ & B2 & _) & _). rewrite R in E2. injection E2 as <-. rewrite EB' in B2. cbn in B2.
    unfold depth_buffer. rewrite EB'. lia.
  Qed.

  (** Exactly: with the loader idle, dropping the buffer nests one destructor in another for
      every segment that is left. *)
  Lemma drain j : forall lo s p d, inv_at lo s -> a_buf s = BGone (Some (p, d)) -> lo = p ->
    match a_load s with LIdle _ => True | _ => False end -> p + j <= length (made s) ->
    exists s', a_run s (repeat StepBuffer j) = Ret s' /\ depth_buffer s' = d + j.
  Proof.
    induction j as [|j IH]; intros lo s p d IV EB LP EL LJ; cbn [repeat a_run].
    - exists s. split; [auto|]. unfold depth_buffer. rewrite EB. lia.
    - pose proof (a_step_ok lo s StepBuffer IV) as (s1 & lo1 & E1 & I1 & _). rewrite E1. cbn [bind].
      destruct IV as (I & B & L & LG). destruct (a_load s) as [t| | | | |] eqn:ELS; try contradiction. rewrite EB in I. cbn [brefs opt_refs lrefs app] in I.
      cbn [l_ok] in L.
      destruct (counted_drop _ _ _ _ p d I) as (h' & q & xs & lo' & E & LH & CASE); [lia|left; lia|].
      cbn [a_step] in E1. unfold step_buffer in E1. rewrite EB, E in E1. cbn [bind] in E1. injection E1 as <-.
      destruct CASE as [(-> & -> & -> & C & X)|[(-> & -> & -> & P & -> & Z & C)|(-> & _ & P & N & -> & Z & C)]].
      + exfalso. cbn in X. destruct (Nat.eqb_spec t p); lia.
      + lia.
      + destruct (IH lo1 _ (S p) (S d) I1 eq_refl) as (s' & R' & D'); cbn [a_load made]; try rewrite ELS; auto; try lia.
        * destruct I1 as (I1 & _). cbn [a_arcs a_buf a_load made] in I1.
          assert (freed1 : nth_error h' lo = Some None) by (rewrite (c_cells _ _ _ _ C) by (rewrite LH; pose proof (c_segs _ _ _ _ I); lia); now rewrite (proj2 (Nat.ltb_lt _ _)) by lia).
          pose proof (c_in _ _ _ _ I1 (S p)) as X1. cbn in X1. rewrite Nat.eqb_refl in X1.
          pose proof (c_cells _ _ _ _ I1 lo) as X2. rewrite freed1 in X2. pose proof (c_segs _ _ _ _ I).
          specialize (X2 ltac:(lia)). destruct (Nat.ltb_spec lo lo1); [lia|discriminate].
        * exists s'. split; [rewrite <- ELS; exact R'|lia].
  Qed.

  Theorem C96_drop_partial es s b t j : a_run (a_start T) es = Ret s -> a_buf s = BIdle b -> a_load s = LIdle t ->
    head_node b + j <= length (made s) ->
    exists s', a_run s (DropBuffer :: repeat StepBuffer j) = Ret s' /\ depth_buffer s' = j.
  Proof.
    intros R EB EL LJ. destruct (reach es s R) as (lo & IV).
    assert (E : lo = head_node b).
    { destruct IV as (I & B & L & _). pose proof (c_first _ _ _ _ I) as CF. pose proof (c_in _ _ _ _ I) as CI.
      rewrite EB, EL in *. cbn [brefs lrefs app cnt b_ok l_ok] in *.
      destruct (CI (head_node b)) as (X1 & X2); [rewrite Nat.eqb_refl; lia|]. specialize (CF ltac:(lia)).
      destruct (Nat.eqb_spec (head_node b) lo), (Nat.eqb_spec t lo); lia. }
    destruct (a_step_ok lo s DropBuffer IV) as (s1 & lo1 & E1 & I1 & LL).
    cbn [a_run]. rewrite E1. cbn [bind]. cbn [a_step] in E1. rewrite EB in E1. injection E1 as <-.
    apply (drain j lo1 _ (head_node b) 0 I1); cbn; auto; [|now rewrite EL].
    destruct I1 as (I1 & _). cbn in I1. pose proof (c_in _ _ _ _ I1 (head_node b)) as X. cbn in X. rewrite Nat.eqb_refl in X. lia.
  Qed.

  (** REFUTED as stated: no depth suffices. *)
  Definition fed (xss : list (list T)) : list (aevent T) :=
    flat_map (fun xs => [Commit xs; StepLoader; StepLoader; StepLoader; StepLoader]) xss.

  Lemma feed_one lo s b t xs : inv_at lo s -> a_buf s = BIdle b -> a_load s = LIdle t ->
    exists s' lo', a_run s (fed [xs]) = Ret s' /\ inv_at lo' s' /\ a_buf s' = BIdle b /\ a_load s' = LIdle (S t) /\ made s' = made s ++ [xs].
  Proof.
    intros IV EB EL. unfold fed. cbn [flat_map app].
    destruct (a_step_ok lo s (Commit xs) IV) as (s1 & lo1 & E1 & I1 & _). cbn [a_run]. rewrite E1. cbn [bind].
    cbn [a_step] in E1. rewrite EL in E1. destruct (arc_new (a_arcs s)) as [h1 m] eqn:EN. injection E1 as <-.
    assert (m = S t) as ->.
    { destruct IV as (_ & _ & L & _). rewrite EL in L. cbn in L. unfold arc_new in EN. injection EN as _ <-. lia. }
    destruct (a_step_ok lo1 _ StepLoader I1) as (s2 & lo2 & E2 & I2 & _). rewrite E2. cbn [bind].
    cbn [a_step] in E2. unfold step_loader in E2. cbn [a_load a_arcs a_buf made lost] in E2.
    destruct (arc_clone h1 (S t)) as [h2| | |]; cbn [bind] in E2; try discriminate. injection E2 as <-.
    destruct (a_step_ok lo2 _ StepLoader I2) as (s3 & lo3 & E3 & I3 & _). rewrite E3. cbn [bind].
    cbn [a_step] in E3. unfold step_loader in E3. cbn [a_load a_arcs a_buf made lost] in E3.
    destruct (lock_set h2 t (xs, S t)) as [h3| | |]; cbn [bind] in E3; try discriminate. injection E3 as <-.
    destruct (a_step_ok lo3 _ StepLoader I3) as (s4 & lo4 & E4 & I4 & _). rewrite E4. cbn [bind].
    cbn [a_step] in E4. unfold step_loader in E4. cbn [a_load a_arcs a_buf made lost] in E4. injection E4 as <-.
    destruct (a_step_ok lo4 _ StepLoader I4) as (s5 & lo5 & E5 & I5 & _). rewrite E5. cbn [bind].
    cbn [a_step] in E5. unfold step_loader in E5. cbn [a_load a_arcs a_buf made lost] in E5.
    destruct (arc_drop h3 t 0) as [[[h5 q] ys]| | |] eqn:D; cbn [bind] in E5; try discriminate. injection E5 as <-.
    exists (AState h5 (a_buf s) (match q with Some (p', d') => LDrop (S t) p' d' | None => LIdle (S t) end) (made s ++ [xs]) (lost s ++ ys)), lo5.
    split; [reflexivity|]. split; [exact I5|]. cbn [a_buf a_load made]. split; [exact EB|]. split; [|reflexivity].
    destruct q as [(p', d')|]; [exfalso|reflexivity].
    destruct I4 as (I & B & L & _). cbn [a_arcs a_buf a_load made] in *. rewrite EB in I, B. cbn [brefs lrefs app b_ok l_ok] in *.
    destruct IV as (_ & B0 & L0 & _). rewrite EB in B0. rewrite EL in L0. cbn in B0, L0.
    destruct (counted_drop h3 lo4 (made s ++ [xs]) [head_node b; S t] t 0) as (h' & q & zs & lo' & E & LH & CASE).
    - eapply counted_ext; [|exact I]. intros i. cbn. lia.
    - lia.
    - left. lia.
    - rewrite D in E. injection E as <- <- <-. destruct CASE as [(? & _)|[(? & _)|(_ & LT & P & N & _ & Z & C)]]; try discriminate.
      cbn in Z. pose proof (c_in _ _ _ _ I (head_node b)) as X. cbn in X. rewrite Nat.eqb_refl in X.
      destruct (Nat.eqb_spec (head_node b) t); lia.
  Qed.

  Lemma feed_all xss : forall lo s b t, inv_at lo s -> a_buf s = BIdle b -> a_load s = LIdle t ->
    exists s', a_run s (fed xss) = Ret s' /\ a_buf s' = BIdle b /\ a_load s' = LIdle (t + length xss) /\ made s' = made s ++ xss.
  Proof.
    induction xss as [|xs xss IH]; intros lo s b t IV EB EL.
    - exists s. cbn. rewrite Nat.add_0_r, app_nil_r. auto.
    - change (fed (xs :: xss)) with (fed [xs] ++ fed xss).
      destruct (feed_one lo s b t xs IV EB EL) as (s1 & lo1 & R1 & I1 & B1 & L1 & M1). rewrite a_run_app, R1. cbn [bind].
      destruct (IH lo1 s1 b (S t) I1 B1 L1) as (s2 & R2 & B2 & L2 & M2). exists s2. split; [exact R2|]. split; [exact B2|].
      split; [rewrite L2; f_equal; cbn; lia|]. now rewrite M2, M1, <- app_assoc.
  Qed.

  Theorem C96_bounded_refuted : forall d, exists es s, a_run (a_start T) es = Ret s /\ depth_buffer s = d.
  Proof.
    intros d. destruct (feed_all (repeat [] d) 0 (a_start T) buffer_new 0 inv_start eq_refl eq_refl) as (s & R & B & L & M).
    destruct (C96_drop_partial _ s buffer_new _ d R B L) as (s' & R' & D').
    { rewrite M. cbn. rewrite repeat_length. lia. }
    exists (fed (repeat [] d) ++ DropBuffer :: repeat StepBuffer d), s'. rewrite a_run_app, R. cbn [bind]. auto.
  Qed.
End Arc.

(** ** Cases *)
(** Two segments; the buffer passes the first while the loader commits the second, then both go. *)
Definition session : list (aevent nat) :=
  [Commit [1; 2]; StepLoader; StepLoader; CallAdvance 3; StepBuffer; StepLoader; StepBuffer; StepLoader;
   Commit [3]; StepBuffer; StepLoader; StepBuffer; StepLoader; StepLoader; StepLoader; StepBuffer].
Example C95_case_interleaved :
  exists s, a_run (a_start nat) session = Ret s /\ settled s /\ first_needed s = 1 /\ lost s = [1; 2] /\ made s = [[1; 2]; [3]].
Proof. eexists. split; [vm_compute; reflexivity|]. split; [split; exact Logic.I|]. repeat split; vm_compute; reflexivity. Qed.
Example C95_case_gone :
  exists s, a_run (a_start nat) (session ++ [DropBuffer; DropLoader; StepLoader; StepBuffer; StepBuffer; StepBuffer]) = Ret s
    /\ settled s /\ a_arcs s = [None; None; None] /\ lost s = [1; 2; 3].
Proof. eexists. split; [vm_compute; reflexivity|]. split; [split; exact Logic.I|]. repeat split; vm_compute; reflexivity. Qed.
Example C95_case_readable :
  exists s, a_run (a_start nat) session = Ret s /\ first_readable s = Some 1 /\ nth_error (made s) 1 = Some [3].
Proof. eexists. split; [vm_compute; reflexivity|]. split; reflexivity. Qed.
(** One [advance] over three segments nests three. *)
Example C96_case_advance :
  exists s b p, a_run (a_start nat) (fed [[1]; [2]; [3]] ++ CallAdvance 3 :: repeat StepBuffer 8) = Ret s /\ a_buf s = BDrop b p 3
    /\ depth_buffer s = 3 /\ lost s = [1; 2; 3].
Proof. do 3 eexists. split; [vm_compute; reflexivity|]. split; [reflexivity|]. split; reflexivity. Qed.
Example C96_case_drop :
  exists s, a_run (a_start nat) (fed [[1]; [2]; [3]]) = Ret s /\ a_buf s = BIdle buffer_new /\ a_load s = LIdle 3 /\ length (made s) = 3.
Proof. eexists. split; [vm_compute; reflexivity|]. split; [reflexivity|]. split; reflexivity. Qed.

Print Assumptions C95_safe.
Print Assumptions C95_once.
Print Assumptions C95_readable.
Print Assumptions C95_settled.
Print Assumptions C95_settles.
Print Assumptions C96_bound_partial.
Print Assumptions C96_call_partial.
Print Assumptions C96_drop_partial.
Print Assumptions C96_bounded_refuted.
