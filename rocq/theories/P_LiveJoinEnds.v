(** * P_LiveJoinEnds: property C82, on a source that is done a joined parser must
    get to its answer, whatever the loaders do meanwhile. *)
From Coq Require Import Lia.
From Verif Require Import S_LiveJoinEnds L_LiveJoin P_Runner P_Live P_LiveLate P_LiveEnds P_LiveJoin L_LiveOwn.

Section Chains.
  Context {T : Type}.

  Lemma chain_nodes (h : heap T) n ss tail : chain h n ss tail ->
    exists ns, length ns = length ss /\ NoDup ns /\
      forall m, In m ns -> m < length h /\ exists ss', chain h m ss' tail /\ 0 < length ss' <= length ss.
  Proof.
    induction 1 as [n E|n b m ss tail E C (ns & L & ND & A)].
    - exists []. repeat split; auto using NoDup_nil; cbn; contradiction.
    - exists (n :: ns). split; [cbn; lia|]. split.
      + constructor; [|auto]. intros I. destruct (A _ I) as (_ & ss' & C' & B).
        assert (C2 : chain h n (b :: ss) tail) by (econstructor; eauto). pose proof (chain_unique _ _ _ _ _ _ C' C2) as X. destruct X as (-> & _). cbn in B. lia.
      + intros k [<-|I].
        * split; [apply nth_error_Some; congruence|]. exists (b :: ss). split; [|cbn; lia]. econstructor; eauto.
        * destruct (A _ I) as (B & ss' & C' & D). split; [auto|]. exists ss'. split; [auto|]. cbn. lia.
  Qed.
  Lemma chain_fits (h : heap T) n ss tail : chain h n ss tail -> length ss <= length h.
  Proof.
    intros C. destruct (chain_nodes _ _ _ _ C) as (ns & <- & ND & A).
    rewrite <- (seq_length (length h) 0). apply NoDup_incl_length; [auto|].
    intros m I. apply in_seq. destruct (A m I). lia.
  Qed.
  Lemma ahead_fits (h : heap T) tail b q : ahead h tail b q -> length q <= length h.
  Proof.
    intros (ss & C & A). pose proof (chain_fits _ _ _ _ C). destruct ss; destruct A as (_ & ->); cbn in *; lia.
  Qed.
End Chains.

Section Ends.
  Context {T : Type} (eqb : T -> T -> bool).
  Hypothesis eq_ok : decides_eq eqb.
  Variable modulus : nat.

  Lemma goes_reach O (l : @looker T O) x b k s s' : goes modulus k s s' -> lreach modulus l x b s -> lreach modulus l x b s'.
  Proof.
    induction 1 as [s|k s s1 s2 B G IH|k s s1 s2 (B & _) G IH]; intros R; auto; apply IH; eapply lr_step; eauto.
    destruct B; [now apply lv_loader|now apply lv_advanced|now apply lv_missed].
  Qed.

  Lemma prim_counts_runs O (l : @looker T O) x b k r : prim_counts modulus O l x b k (Answered r) ->
    exists h, prim_runs modulus l x b h r.
  Proof.
    intros C. inversion C as [|k' h o a G P|k' b' s G]; subst; eexists; constructor; auto;
      (eapply goes_reach; [eassumption|constructor]).
  Qed.

  (** What a joined parser answers in so many steps is an answer of which the
      other theorems speak. *)
  Theorem C82_counted O E (p : lparser T O E) x b k r : counts eqb modulus O E p x b k (Answered r) ->
    exists h, runs eqb modulus p x b h r.
  Proof.
    intros C. remember (Answered r) as pr eqn:Q. revert r Q.
    induction C; intros r' Q; subst.
    - destruct (prim_counts_runs _ _ _ _ _ _ H) as (h & R). exists h. now constructor.
    - destruct (prim_counts_runs _ _ _ _ _ _ H) as (h & R). exists h. now constructor.
    - destruct (prim_counts_runs _ _ _ _ _ _ H) as (h & R). exists h. now constructor.
    - destruct (prim_counts_runs _ _ _ _ _ _ H) as (h & R). exists h. now constructor.
    - discriminate.
    - injection Q as <-. destruct (IHC _ eq_refl) as (h & R). exists h. now apply run_join_first.
    - destruct r as [|r]; [discriminate|]. injection Q as <-. destruct (IHC1 _ eq_refl) as (h0 & R0).
      destruct (IHC2 _ eq_refl) as (h1 & R1). exists (h1 ++ h0). destruct r.
      + eapply run_join; eauto.
      + eapply run_join_last; eauto.
    - destruct r as [|r]; [discriminate|]. injection Q as <-. destruct (IHC _ eq_refl) as (h & R). exists h.
      destruct r; [now apply run_map|now apply run_map_fails].
    - destruct r as [|r]; [discriminate|]. injection Q as <-. destruct (IHC _ eq_refl) as (h & R). exists h.
      destruct r; [now apply run_map_err|now apply run_map_err_fails].
    - destruct r as [|r]; [discriminate|]. injection Q as <-. destruct (IHC _ eq_refl) as (h & R). exists h.
      destruct r as [o x0 b0|e x0 b0]; [destruct (f o) eqn:F|].
      + eapply run_and_then; eauto.
      + eapply run_and_then_refused; eauto.
      + now apply run_and_then_fails.
    - destruct r as [|r]; [discriminate|]. injection Q as <-. destruct (IHC _ eq_refl) as (h & R). exists h.
      destruct r; [now apply run_unify|now apply run_unify_fails].
    - destruct r as [|r]; [discriminate|]. injection Q as <-. destruct (IHC _ eq_refl) as (h & R). exists h.
      destruct r; [now apply run_unify_err|now apply run_unify_err_fails].
    - destruct (IHC _ eq_refl) as (h & R). exists h. now apply run_ref.
    - destruct (IHC _ eq_refl) as (h & R). exists h. now apply run_boxed.
    - injection Q as <-. eexists. apply run_done.
    - injection Q as <-. eexists. apply run_fail.
    - discriminate.
    - injection Q as <-. destruct (IHC _ eq_refl) as (h & R). exists h. now apply run_then_fails.
    - destruct (IHC1 _ eq_refl) as (h0 & R0). destruct (IHC2 _ eq_refl) as (h1 & R1). exists (h1 ++ h0). eapply run_then; eauto.
  Qed.

  (** ** It does not stop before its answer *)
  Lemma busy_start O E (p : lparser T O E) x b : exists r, counts eqb modulus O E p x b 0 r.
  Proof.
    induction p as [|y|pat|O l|O0 E0 O1 E1 p0 IH0 p1 IH1|O E U p IH f|O E U p IH f|O E O' E' from p IH f
      |T0 T1 U E i0 i1 p IH|O T0 T1 U i0 i1 p IH|O E p IH|O E p IH|O E o0|O E e0|O E O' E' from p IH c IHc] in x, b |- *.
    - eexists. constructor. eapply pc_at_work; [constructor|]. auto.
    - eexists. constructor. eapply pc_at_work; [constructor|]. auto.
    - eexists. constructor. eapply pc_at_work; [constructor|]. auto.
    - eexists. constructor. eapply pc_at_work; [constructor|]. auto.
    - destruct (IH0 x b) as ([|[o0 x0 b0|e x0 b0]] & R).
      + eexists. apply ct_first. exact R.
      + destruct (IH1 x0 b0) as (r & R1). eexists. exact (ct_last eqb modulus _ _ _ _ _ _ _ _ 0 _ _ _ 0 _ R R1).
      + eexists. eapply ct_first_fails. exact R.
    - destruct (IH x b) as (r & R). eexists. apply ct_map. exact R.
    - destruct (IH x b) as (r & R). eexists. apply ct_map_err. exact R.
    - destruct (IH x b) as (r & R). eexists. apply ct_and_then. exact R.
    - destruct (IH x b) as (r & R). eexists. apply ct_unify. exact R.
    - destruct (IH x b) as (r & R). eexists. apply ct_unify_err. exact R.
    - destruct (IH x b) as (r & R). eexists. apply ct_ref. exact R.
    - destruct (IH x b) as (r & R). eexists. apply ct_boxed. exact R.
    - eexists. apply ct_done.
    - eexists. apply ct_fail.
    - destruct (IH x b) as ([|[o0 x0 b0|e x0 b0]] & R).
      + eexists. apply ct_then. exact R.
      + destruct (IHc o0 x0 b0) as (r & R1). eexists. exact (ct_then_on eqb modulus _ _ _ _ _ _ _ _ _ 0 _ _ _ 0 _ R R1).
      + eexists. eapply ct_then_fails. exact R.
  Qed.

  Lemma goes_further O (l : @looker T O) k s s' s'' : goes modulus k s s' -> own (p := l) modulus s' s'' -> goes modulus (k + 1) s s''.
  Proof.
    induction 1 as [s|k s s1 s2 B G IH|k s s1 s2 B G IH]; intros S.
    - econstructor 3; [exact S|constructor].
    - econstructor 2; [exact B|exact (IH S)].
    - econstructor 3; [exact B|exact (IH S)].
  Qed.

  Lemma prim_on O (l : @looker T O) x b q k : honest l -> version x < modulus -> ahead (sh_heap x) (sh_tail x) b q ->
    prim_counts modulus O l x b k AtWork -> exists r, prim_counts modulus O l x b (k + 1) r.
  Proof.
    intros M V A C. inversion C as [k' s G N| |]; subst.
    assert (R : lreach modulus l x b s) by (eapply goes_reach; [exact G|constructor]).
    destruct (C79_progress l modulus x b q V A M s R) as [F|(s' & S)]; [contradiction|].
    pose proof (goes_further _ _ _ _ _ _ G S) as G'. destruct s' as [b' st s'|h o a|b' s'].
    - eexists. eapply pc_at_work; [exact G'|]. auto.
    - assert (D : a_pc a = AReady \/ a_pc a <> AReady) by (destruct (a_pc a); auto; right; discriminate). destruct D as [D|D].
      + eexists. eapply pc_took; eauto.
      + eexists. eapply pc_at_work; [exact G'|]. exact D.
    - eexists. eapply pc_missed. exact G'.
  Qed.

  Theorem C82_progress O E (p : lparser T O E) x b k : all_honest p ->
    forall q, version x < modulus -> ahead (sh_heap x) (sh_tail x) b q ->
    counts eqb modulus O E p x b k AtWork -> exists r, counts eqb modulus O E p x b (k + 1) r.
  Proof.
    intros NE q W A C. remember AtWork as pr eqn:Q. revert q W A NE Q.
    induction C; intros q W A NE Q; subst.
    - destruct (prim_on _ _ _ _ _ _ (modest_honest _ any_modest) W A H) as (r & R). exists r. now constructor.
    - destruct (prim_on _ _ _ _ _ _ (modest_honest _ (the_modest eqb eq_ok y)) W A H) as (r & R). exists r. now constructor.
    - destruct (prim_on _ _ _ _ _ _ (modest_honest _ (atom_modest eqb eq_ok pat)) W A H) as (r & R). exists r. now constructor.
    - destruct NE as (M & _). destruct (prim_on _ _ _ _ _ _ M W A H) as (r & R). exists r. now constructor.
    - destruct NE as (N0 & N1). destruct (IHC q W A N0 eq_refl) as ([|[o0 x0 b0|e x0 b0]] & R).
      + eexists. apply ct_first. exact R.
      + destruct (busy_start _ _ p1 x0 b0) as (r & R1). eexists. rewrite <- (Nat.add_0_r (k + 1)). eapply ct_last; [exact R|exact R1].
      + eexists. eapply ct_first_fails. exact R.
    - discriminate.
    - destruct r; [|discriminate]. destruct NE as (N0 & N1). destruct (C82_counted _ _ _ _ _ _ _ C1) as (h & R).
      destruct (run_placed eqb eq_ok modulus _ _ _ _ _ _ _ R N0 q W A) as (V1 & q2 & A1).
      destruct (IHC2 q2 V1 A1 N1 eq_refl) as (r & R1). eexists. rewrite <- Nat.add_assoc. eapply ct_last; eauto.
    - destruct r; [|discriminate]. destruct (IHC q W A NE eq_refl) as (r & R). eexists. constructor. exact R.
    - destruct r; [|discriminate]. destruct (IHC q W A NE eq_refl) as (r & R). eexists. constructor. exact R.
    - destruct r; [|discriminate]. destruct (IHC q W A NE eq_refl) as (r & R). eexists. constructor. exact R.
    - destruct r; [|discriminate]. destruct (IHC q W A NE eq_refl) as (r & R). eexists. apply ct_unify. exact R.
    - destruct r; [|discriminate]. destruct (IHC q W A NE eq_refl) as (r & R). eexists. apply ct_unify_err. exact R.
    - destruct (IHC q W A NE eq_refl) as (r & R). eexists. apply ct_ref. exact R.
    - destruct (IHC q W A NE eq_refl) as (r & R). eexists. apply ct_boxed. exact R.
    - discriminate.
    - discriminate.
    - destruct NE as (N0 & N1). destruct (IHC q W A N0 eq_refl) as ([|[o0 x0 b0|e x0 b0]] & R).
      + eexists. apply ct_then. exact R.
      + destruct (busy_start _ _ (c o0) x0 b0) as (r & R1). eexists. rewrite <- (Nat.add_0_r (k + 1)). eapply ct_then_on; [exact R|exact R1].
      + eexists. eapply ct_then_fails. exact R.
    - discriminate.
    - destruct NE as (N0 & N1). destruct (C82_counted _ _ _ _ _ _ _ C1) as (h & R).
      destruct (run_placed eqb eq_ok modulus _ _ _ _ _ _ _ R N0 q W A) as (V1 & q2 & A1).
      destruct (IHC2 q2 V1 A1 (N1 o) eq_refl) as (r & R1). eexists. rewrite <- Nat.add_assoc. eapply ct_then_on; eauto.
  Qed.

  (** ** On a source that is done it makes boundedly many steps *)
  Lemma sreach_heap x b (s : @sstate T) : done_flag x = true -> sreach modulus x b s -> sh_heap (s_sh s) = sh_heap x.
  Proof.
    intros D R. induction R as [|s s' R IH St]; [reflexivity|]. pose proof (done_stays modulus x b s D R) as D'.
    destruct St; cbn in *; auto. destruct H; cbn in *; auto. discriminate.
  Qed.
  Lemma areach_heap x b n (a : @astate T) : done_flag x = true -> areach modulus x b n a -> sh_heap (a_sh a) = sh_heap x.
  Proof.
    intros D R. induction R as [|s s' R IH St]; [reflexivity|]. pose proof (adone_stays modulus b x n s D R) as D'.
    destruct St; cbn in *; auto. destruct H; cbn in *; auto. discriminate.
  Qed.
  Lemma prim_heap O (l : @looker T O) x b q h r : honest l -> version x < modulus -> ahead (sh_heap x) (sh_tail x) b q ->
    done_flag x = true -> prim_runs modulus l x b h r ->
    match r with Took _ x' _ | Failed _ x' _ => sh_heap x' = sh_heap x end.
  Proof.
    intros M W A D R. destruct R as [h o a L P|b' s L].
    - destruct (own_waits modulus l x b q W A M _ L) as (s & n & S & <- & AR & W' & A').
      rewrite (areach_heap _ _ _ _ (done_stays modulus x b s D S) AR). exact (sreach_heap _ _ _ D S).
    - destruct (own_waits modulus l x b q W A M _ L) as (_ & S). exact (sreach_heap _ _ _ D S).
  Qed.
  Lemma run_heap O E (p : lparser T O E) x b h r : runs eqb modulus p x b h r -> all_honest p ->
    forall q, version x < modulus -> ahead (sh_heap x) (sh_tail x) b q -> done_flag x = true ->
    match r with Took _ x' _ | Failed _ x' _ => sh_heap x' = sh_heap x end.
  Proof.
    intros R. induction R; intros NE q W A D; cbn in NE; try (eapply IHR; eauto; fail).
    - eapply prim_heap; eauto. apply modest_honest, any_modest.
    - eapply prim_heap; eauto. apply modest_honest. now apply the_modest.
    - eapply prim_heap; eauto. apply modest_honest. now apply atom_modest.
    - destruct NE as (M & _). eapply prim_heap; eauto.
    - destruct NE as (N0 & N1). rewrite <- (IHR1 N0 q W A D).
      destruct (run_own eqb eq_ok modulus _ _ _ _ _ _ _ R1 N0 q W A D) as (_ & V1 & D0 & s1 & _ & q2 & A1 & _). eauto.
    - destruct NE as (N0 & N1). eapply IHR; eauto.
    - destruct NE as (N0 & N1). rewrite <- (IHR1 N0 q W A D).
      destruct (run_own eqb eq_ok modulus _ _ _ _ _ _ _ R1 N0 q W A D) as (_ & V1 & D0 & s1 & _ & q2 & A1 & _). eauto.
    - reflexivity.
    - reflexivity.
    - destruct NE as (N0 & N1). rewrite <- (IHR1 N0 q W A D).
      destruct (run_own eqb eq_ok modulus _ _ _ _ _ _ _ R1 N0 q W A D) as (_ & V1 & D0 & s1 & _ & q2 & A1 & _). exact (IHR2 (N1 o) q2 V1 A1 D0).
    - destruct NE as (N0 & N1). eapply IHR; eauto.
  Qed.

  Lemma prim_bounded O (l : @looker T O) x b q k r : honest l -> version x < modulus -> ahead (sh_heap x) (sh_tail x) b q ->
    done_flag x = true -> prim_counts modulus O l x b k r -> k <= 8 * length (sh_heap x) + 13.
  Proof.
    intros M W A D C. pose proof (ahead_fits _ _ _ _ A) as F.
    assert (X : exists s, goes modulus k (LLook (p := l) b (lk_init l) (sinit x b)) s) by (destruct C; eauto).
    destruct X as (s & G). pose proof (C79_bounded l modulus x b q W A M D k s G). lia.
  Qed.

  (** Empty segments make no difference to what it starts. *)
  Lemma leaves_same O E (p : lparser T O E) : all_honest p -> forall q1 q2, solid q1 = solid q2 -> leaves eqb p q1 = leaves eqb p q2.
  Proof.
    assert (X : forall O' E' (p0 : lparser T O' E') (f : O' -> list (list T) -> nat), all_honest p0 ->
      (forall o s1 s2, solid s1 = solid s2 -> f o s1 = f o s2) -> forall q1 q2, solid q1 = solid q2 ->
      match parse (built eqb p0) (Chunked q1) with Ret (Ok o s) => f o (ck_segs s) | _ => 0 end =
      match parse (built eqb p0) (Chunked q2) with Ret (Ok o s) => f o (ck_segs s) | _ => 0 end).
    { intros O' E' p0 f N0 F q1 q2 Q. pose proof (built_same eqb eq_ok p0 N0 q1 q2 Q) as B.
      destruct (parse (built eqb p0) (Chunked q1)) as [[o1 [s1]|e1 [s1]]| | |],
        (parse (built eqb p0) (Chunked q2)) as [[o2 [s2]|e2 [s2]]| | |]; cbn in B; try contradiction; auto.
      destruct B as (-> & B). now apply F. }
    induction p as [|y|pat|O l|O0 E0 O1 E1 p0 IH0 p1 IH1|O E U p IH f|O E U p IH f|O E O' E' from p IH f
      |T0 T1 U E i0 i1 p IH|O T0 T1 U i0 i1 p IH|O E p IH|O E p IH|O E o0|O E e0|O E O' E' from p IH c IHc];
      intros NE q1 q2 Q; cbn [leaves all_honest] in *; auto.
    - destruct NE as (N0 & N1). rewrite (IH0 N0 _ _ Q). f_equal. apply (X _ _ p0 (fun _ => leaves eqb p1)); auto.
    - destruct NE as (N0 & N1). rewrite (IH N0 _ _ Q). f_equal. apply (X _ _ p (fun o => leaves eqb (c o))); auto.
  Qed.

  (** With [n] segments ever appended and [m] primitive parsers that it starts on
      what is there, it makes at most [m * (8 * (n + 1) + 13)] steps, however the
      loaders' steps fall between them; [sh_heap] has a node for each segment and
      one more. *)
  Theorem C82_bounded O E (p : lparser T O E) x b k r : all_honest p ->
    forall q, version x < modulus -> ahead (sh_heap x) (sh_tail x) b q -> done_flag x = true ->
    counts eqb modulus O E p x b k r -> k <= leaves eqb p q * (8 * length (sh_heap x) + 13).
  Proof.
    intros NE q W A D C. revert q W A D NE. induction C; intros q W A D NE; cbn [leaves] in *; eauto.
    - rewrite Nat.mul_1_l. eapply prim_bounded; eauto. apply modest_honest, any_modest.
    - rewrite Nat.mul_1_l. eapply prim_bounded; eauto. apply modest_honest. now apply the_modest.
    - rewrite Nat.mul_1_l. eapply prim_bounded; eauto. apply modest_honest. now apply atom_modest.
    - destruct NE as (M & _). rewrite Nat.mul_1_l. eapply prim_bounded; eauto.
    - destruct NE as (N0 & N1). specialize (IHC q W A D N0). rewrite Nat.mul_add_distr_r. lia.
    - destruct NE as (N0 & N1). specialize (IHC q W A D N0). rewrite Nat.mul_add_distr_r. lia.
    - destruct NE as (N0 & N1). specialize (IHC1 q W A D N0). destruct (C82_counted _ _ _ _ _ _ _ C1) as (h & R).
      destruct (run_own eqb eq_ok modulus _ _ _ _ _ _ _ R N0 q W A D) as (_ & V1 & D1 & s1 & P1 & q2 & A1 & S1).
      specialize (IHC2 q2 V1 A1 D1 N1). pose proof (run_heap _ _ _ _ _ _ _ R N0 q W A D) as HH. cbn in HH.
      rewrite HH in IHC2. rewrite Nat.mul_add_distr_r.
      rewrite P1. cbn [ck_segs]. rewrite <- (leaves_same _ _ p1 N1 _ _ S1). lia.
    - destruct NE as (N0 & N1). specialize (IHC q W A D N0). rewrite Nat.mul_add_distr_r. lia.
    - destruct NE as (N0 & N1). specialize (IHC q W A D N0). rewrite Nat.mul_add_distr_r. lia.
    - destruct NE as (N0 & N1). specialize (IHC1 q W A D N0). destruct (C82_counted _ _ _ _ _ _ _ C1) as (h & R).
      destruct (run_own eqb eq_ok modulus _ _ _ _ _ _ _ R N0 q W A D) as (_ & V1 & D1 & s1 & P1 & q2 & A1 & S1).
      specialize (IHC2 q2 V1 A1 D1 (N1 o)). pose proof (run_heap _ _ _ _ _ _ _ R N0 q W A D) as HH. cbn in HH.
      rewrite HH in IHC2. rewrite Nat.mul_add_distr_r.
      rewrite P1. cbn [ck_segs]. rewrite <- (leaves_same _ _ (c o) (N1 o) _ _ S1). lia.
  Qed.

  (** So it answers: whoever has let it make so many steps has the answer. *)
  Theorem C82_must_finish O E (p : lparser T O E) x b k r : all_honest p ->
    forall q, version x < modulus -> ahead (sh_heap x) (sh_tail x) b q -> done_flag x = true ->
    counts eqb modulus O E p x b k r -> leaves eqb p q * (8 * length (sh_heap x) + 13) <= k ->
    exists a, r = Answered a.
  Proof.
    intros NE q W A D C L. destruct r as [|a]; [|eauto]. exfalso.
    destruct (C82_progress _ _ _ _ _ _ NE q W A C) as (r & C').
    pose proof (C82_bounded _ _ _ _ _ _ _ NE q W A D C'). lia.
  Qed.
End Ends.

(** ** A case: one item is there and the source is done; the first [any_item] takes
    the item, the second finds nothing. *)
Ltac poll R := eapply goes_own; [split; [apply lv_poll; [R|discriminate]|intros B; inversion B]|].
Ltac answer v R := eapply goes_own; [split; [apply lv_answer with (r := v); [R|reflexivity]|intros B; inversion B]|].
Ltac adv R := eapply goes_own; [split; [apply lv_advance; [R|discriminate]|intros B; inversion B]|].

Example C82_case_counts :
  let x := Shared (@cons (option (list nat * nat)) (Some ([5], 1)) [None]) 1 0 true false 0 false in
  ahead (sh_heap x) (sh_tail x) buffer_new [[5]] /\
  exists k x' b', counts Nat.eqb 2 _ _ (PJoin PAny PAny) x buffer_new k (Answered (Failed (Last (MkMiss tt)) x' b')).
Proof.
  intros x. split.
  - exists [[5]]. split; [|split; cbn; [auto|reflexivity]]. eapply chain_node; [reflexivity|]. apply chain_end. reflexivity.
  - eexists _, _, _. eapply ct_last with (r := Answered (Failed _ _ _)).
    + constructor. eapply pc_took.
      * poll ltac:(apply ss_next). poll ltac:(apply ss_poll). poll ltac:(apply ss_fut_none).
        answer (Some [5]) ltac:(eapply ss_next1_some; reflexivity).
        adv ltac:(apply as_poll). adv ltac:(apply as_fut_none). adv ltac:(apply as_wait).
        adv ltac:(eapply as_turn; reflexivity).
        adv ltac:(eapply as_last; reflexivity).
        adv ltac:(apply as_all; reflexivity). apply goes_here.
      * reflexivity.
    + constructor. eapply pc_missed.
      poll ltac:(apply ss_next). poll ltac:(apply ss_poll). poll ltac:(apply ss_fut_none).
      poll ltac:(eapply ss_next1_none; reflexivity). poll ltac:(apply ss_wait).
      poll ltac:(eapply ss_next2_none; reflexivity).
      answer (@None (list nat)) ltac:(apply ss_done; reflexivity). apply goes_here.
Qed.

(** ** A case: an async function that reads one item and then as many as it says.  How many
    primitive parsers it starts depends on what is there. *)
Example C82_case_leaves :
  let items := fix items n := match n with 0 => PDone [] | S n => PThen (fun e => e) PAny (fun x => PMap (items n) (cons x)) end in
  let p := PThen (fun e : Miss unit => e) (@PAny nat) items in
  all_honest p /\ leaves Nat.eqb p [[2; 5]; []; [6; 7]] = 3 /\ leaves Nat.eqb p [[0]; [6]] = 1 /\ leaves Nat.eqb p [[9]; [6]] = 3.
Proof. split; [|repeat split]. split; [exact I|]. intros n. induction n; cbn; auto. Qed.

Print Assumptions C82_counted.
Print Assumptions C82_progress.
Print Assumptions C82_bounded.
Print Assumptions C82_must_finish.
