(** * L_Drop: lemmas for C68. *)
From Coq Require Import Lia.
From Verif Require Import M_Drop S_GenSeq S_Drop L_GenSeq L_GenSeq2.

Section Part.
  Context {T E G : Type}.
  Notation ops := (request_writer_ops T E).

  Lemma run_part_inv steps : forall (p : wprog T E G) pre w tr c w' tr',
    rinv pre w c -> accepted tr = c -> run_writer_part ops steps p w tr = Ret (w', tr') ->
    exists c', rinv pre w' c' /\ accepted tr' = c'.
  Proof.
    induction steps as [|steps IH]; intros p pre w tr c w' tr' I A R; cbn [run_writer_part] in R.
    { injection R as <- <-. eauto. }
    destruct p as [x k|xs k|n k|k|k|k|f k|g0|e g0].
    - apply bind_ret in R as ([w1 ok] & P & R). destruct (r_push_inv _ _ _ _ _ _ I P) as (I1 & T1 & C1).
      eapply IH; [exact I1| |exact R]. rewrite accepted_snoc, A. now destruct ok.
    - apply bind_ret in R as ([w1 m] & P & R). destruct (r_fill_inv _ _ _ _ _ _ I P) as (I1 & T1 & C1).
      eapply IH; [exact I1| |exact R]. now rewrite accepted_snoc, A.
    - apply bind_ret in R as (w1 & P & R). destruct (r_shrink_inv _ _ _ _ _ I P) as (I1 & T1 & C1).
      eapply IH; [exact I1| |exact R]. now rewrite accepted_snoc, A.
    - apply bind_ret in R as (m & _ & R). eapply IH; eauto.
    - apply bind_ret in R as (m & _ & R). eapply IH; eauto.
    - apply bind_ret in R as (m & _ & R). eapply IH; eauto.
    - apply bind_ret in R as ([w1 ys] & P & R). destruct (r_edit (E := E) _ _ _ f I) as (w0 & P0 & I1 & _).
      rewrite P0 in P. injection P as <- <-. eapply IH; [exact I1| |exact R]. now rewrite accepted_snoc, A.
    - injection R as <- <-. eauto.
    - injection R as <- <-. eauto.
  Qed.

  (** An interrupted run is a beginning of the whole run, and long enough it is all of it. *)
  Lemma run_writer_grows {W R} (B : bwriter W T E R) (p : wprog T E G) : forall w tr r g tr' en,
    run_writer B p w tr = Ret (r, g, tr', en) -> exists more, tr' = tr ++ more.
  Proof.
    induction p as [x k IH|xs k IH|m k IH|k IH|k IH|k IH|f k IH|g0|e g0]; intros w tr r g tr' en RW; cbn [run_writer] in RW.
    - apply bind_ret in RW as ([w1 ok] & _ & RW). destruct (IH _ _ _ _ _ _ _ RW) as (more & ->). rewrite <- app_assoc. eauto.
    - apply bind_ret in RW as ([w1 ok] & _ & RW). destruct (IH _ _ _ _ _ _ _ RW) as (more & ->). rewrite <- app_assoc. eauto.
    - apply bind_ret in RW as (w1 & _ & RW). destruct (IH _ _ _ _ _ _ RW) as (more & ->). rewrite <- app_assoc. eauto.
    - apply bind_ret in RW as (n & _ & RW). exact (IH _ _ _ _ _ _ _ RW).
    - apply bind_ret in RW as (n & _ & RW). exact (IH _ _ _ _ _ _ _ RW).
    - apply bind_ret in RW as (n & _ & RW). exact (IH _ _ _ _ _ _ _ RW).
    - apply bind_ret in RW as ([w1 ys] & _ & RW). destruct (IH _ _ _ _ _ _ RW) as (more & ->). rewrite <- app_assoc. eauto.
    - apply bind_ret in RW as (w1 & _ & RW). injection RW as _ _ <- _. exists []. now rewrite app_nil_r.
    - apply bind_ret in RW as (w1 & _ & RW). injection RW as _ _ <- _. exists []. now rewrite app_nil_r.
  Qed.

  Lemma run_part_prefix {W R} (B : bwriter W T E R) steps : forall (p : wprog T E G) w tr r g tr' en,
    run_writer B p w tr = Ret (r, g, tr', en) ->
    exists w1 tr1 more, run_writer_part B steps p w tr = Ret (w1, tr1) /\ tr' = tr1 ++ more.
  Proof.
    induction steps as [|steps IH]; intros p w tr r g tr' en RW; cbn [run_writer_part].
    { destruct (run_writer_grows B p _ _ _ _ _ _ RW) as (more & ->). eauto 6. }
    destruct p as [x k|xs k|n k|k|k|k|f k|g0|e g0]; cbn [run_writer] in RW.
    - apply bind_ret in RW as ([w1 ok] & Q & RW). rewrite Q. cbn [bind]. exact (IH _ _ _ _ _ _ _ RW).
    - apply bind_ret in RW as ([w1 ok] & Q & RW). rewrite Q. cbn [bind]. exact (IH _ _ _ _ _ _ _ RW).
    - apply bind_ret in RW as (w1 & Q & RW). rewrite Q. cbn [bind]. exact (IH _ _ _ _ _ _ _ RW).
    - apply bind_ret in RW as (w1 & Q & RW). rewrite Q. cbn [bind]. exact (IH _ _ _ _ _ _ _ RW).
    - apply bind_ret in RW as (w1 & Q & RW). rewrite Q. cbn [bind]. exact (IH _ _ _ _ _ _ _ RW).
    - apply bind_ret in RW as (w1 & Q & RW). rewrite Q. cbn [bind]. exact (IH _ _ _ _ _ _ _ RW).
    - apply bind_ret in RW as ([w1 ys] & Q & RW). rewrite Q. cbn [bind]. exact (IH _ _ _ _ _ _ _ RW).
    - apply bind_ret in RW as (w1 & Q & RW). injection RW as _ _ <- _. exists w, tr, []. rewrite app_nil_r. auto.
    - apply bind_ret in RW as (w1 & Q & RW). injection RW as _ _ <- _. exists w, tr, []. rewrite app_nil_r. auto.
  Qed.

  Lemma run_part_all {W R} (B : bwriter W T E R) (p : wprog T E G) : forall w tr r g tr' en,
    run_writer B p w tr = Ret (r, g, tr', en) ->
    exists N w1, forall steps, N <= steps -> run_writer_part B steps p w tr = Ret (w1, tr').
  Proof.
    assert (forall n steps, S n <= steps -> exists s', steps = S s' /\ n <= s') as Up
      by (intros n [|s'] LE; [lia|exists s'; split; [reflexivity|lia]]).
    induction p as [x k IH|xs k IH|m k IH|k IH|k IH|k IH|f k IH|g0|e g0]; intros w tr r g tr' en RW; cbn [run_writer] in RW.
    - apply bind_ret in RW as ([w1 ok] & Q & RW). destruct (IH _ _ _ _ _ _ _ RW) as (N & w2 & H). exists (S N), w2.
      intros steps LE. destruct (Up _ _ LE) as (s' & -> & LE'). cbn [run_writer_part]. rewrite Q. exact (H s' LE').
    - apply bind_ret in RW as ([w1 ok] & Q & RW). destruct (IH _ _ _ _ _ _ _ RW) as (N & w2 & H). exists (S N), w2.
      intros steps LE. destruct (Up _ _ LE) as (s' & -> & LE'). cbn [run_writer_part]. rewrite Q. exact (H s' LE').
    - apply bind_ret in RW as (w1 & Q & RW). destruct (IH _ _ _ _ _ _ RW) as (N & w2 & H). exists (S N), w2.
      intros steps LE. destruct (Up _ _ LE) as (s' & -> & LE'). cbn [run_writer_part]. rewrite Q. exact (H s' LE').
    - apply bind_ret in RW as (w1 & Q & RW). destruct (IH _ _ _ _ _ _ _ RW) as (N & w2 & H). exists (S N), w2.
      intros steps LE. destruct (Up _ _ LE) as (s' & -> & LE'). cbn [run_writer_part]. rewrite Q. exact (H s' LE').
    - apply bind_ret in RW as (w1 & Q & RW). destruct (IH _ _ _ _ _ _ _ RW) as (N & w2 & H). exists (S N), w2.
      intros steps LE. destruct (Up _ _ LE) as (s' & -> & LE'). cbn [run_writer_part]. rewrite Q. exact (H s' LE').
    - apply bind_ret in RW as (w1 & Q & RW). destruct (IH _ _ _ _ _ _ _ RW) as (N & w2 & H). exists (S N), w2.
      intros steps LE. destruct (Up _ _ LE) as (s' & -> & LE'). cbn [run_writer_part]. rewrite Q. exact (H s' LE').
    - apply bind_ret in RW as ([w1 ys] & Q & RW). destruct (IH _ _ _ _ _ _ RW) as (N & w2 & H). exists (S N), w2.
      intros steps LE. destruct (Up _ _ LE) as (s' & -> & LE'). cbn [run_writer_part]. rewrite Q. exact (H s' LE').
    - apply bind_ret in RW as (w1 & Q & RW). injection RW as _ _ <- _. exists 0, w. now intros [].
    - apply bind_ret in RW as (w1 & Q & RW). injection RW as _ _ <- _. exists 0, w. now intros [].
  Qed.
End Part.

Section Drop.
  Context {T E G : Type} (src : source T E G).

  Local Notation progress_of := (progress_of (T := T) (E := E) (G := G)).
  Local Notation fits := (fits src).
  Local Notation ends := (ends src).

  Lemma accepted_nil : accepted (T := T) [] = [].
  Proof. reflexivity. Qed.

  Lemma dropped_inv grow st g' l ss xs l' tr :
    linv l ss xs -> load_dropped src grow st g' l = Ret (l', tr) ->
    linv l' ss (left_over (progress_of st (src (ld_source l)) (ends grow l)) (fits l) xs (accepted tr)).
  Proof.
    intros (C & H) R. destruct st as [|steps|]; cbn [load_dropped] in R.
    - injection R as <- <-. split; auto.
    - unfold fits. destruct (src (ld_source l)) as [n p|g0|e g0] eqn:S; cbn [progress_of left_over].
      + apply bind_ret in R as (r & RQ & R). apply bind_ret in R as ([r' tr'] & RW & R).
        injection R as <- <-.
        destruct (request_ok (T := T) grow _ _ n H) as (r0 & RQ' & CASE). rewrite RQ in RQ'. injection RQ' as <-.
        rewrite (holds_len _ _ H).
        destruct CASE as [(L & I & _)|(L & I & _)].
        * destruct (run_part_inv _ _ _ _ _ _ _ _ I accepted_nil RW) as (c' & (HB & _) & A).
          rewrite (proj2 (Nat.leb_le _ _)) by auto. rewrite A. split; auto.
        * destruct (run_part_inv _ _ _ _ _ _ _ _ I accepted_nil RW) as (c' & (HB & _) & A).
          rewrite (proj2 (Nat.leb_gt _ _)) by auto. rewrite A. split; auto.
      + injection R as <- <-. split; auto.
      + injection R as <- <-. split; auto.
    - apply bind_ret in R as ([[[[res buf] g] tr0] en0] & R1 & R2). injection R2 as <- <-.
      unfold ends. rewrite R1. unfold fits, run_source in *.
      destruct (src (ld_source l)) as [n p|g0|e g0] eqn:S.
      + apply bind_ret in R1 as (w & RQ & RW). cbn in RQ.
        destruct (request_ok (T := T) grow _ _ n H) as (r & RQ' & CASE). rewrite RQ in RQ'. injection RQ' as <-.
        assert (X : exists pre, rinv pre w [] /\ pre = if n <=? vcap (ld_buf l) - length xs then xs else []).
        { destruct CASE as [(L & I & _)|(L & I & _)].
          - exists xs. rewrite (proj2 (Nat.leb_le _ _)); auto.
          - exists []. rewrite (proj2 (Nat.leb_gt _ _)); auto. }
        destruct X as (pre & I & PRE). clear CASE. rewrite (holds_len _ _ H).
        destruct (run_writer_inv p _ _ _ _ _ _ _ _ I accepted_nil RW) as (w' & c' & I' & A & TA & VC & EN).
        destruct I' as (HB & OF).
        destruct EN as [(-> & AD)|(-> & e & CA)].
        * assert (HB' : holds buf (pre ++ c')).
          { cbn in AD. destruct (vlen (to_append w') =? 0); injection AD as _ <-; exact HB. }
          cbn. rewrite A. split; [exact C|]. cbn. revert HB'. rewrite PRE.
          destruct (n <=? vcap (ld_buf l) - length xs); auto.
        * cbn in CA. apply bind_ret in CA as (v & DR & CA). injection CA as <- <-.
          destruct (drain_ok _ _ (roffset w') HB) as (v' & DR' & HV & _); [rewrite OF, app_length; lia|].
          rewrite DR in DR'. injection DR' as <-. rewrite OF, firstn_length_app in HV.
          cbn. split; [exact C|]. cbn. rewrite <- PRE. exact HV.
      + cbn in R1. injection R1 as <- <- <- <- <-. cbn. split; [exact C|apply holds_new].
      + cbn in R1. injection R1 as <- <- <- <- <-. cbn. split; auto.
  Qed.

  Lemma drop_all_inv cs : forall l ss xs l', linv l ss xs -> drop_all src cs l = Ret l' ->
    exists ss' xs', linv l' ss' xs'.
  Proof.
    induction cs as [|[grow| |grow st g'] cs IH]; intros l ss xs l' I R; cbn [drop_all] in R.
    - injection R as <-. eauto.
    - apply bind_ret in R as ([[i l1] [tr en]] & R1 & R).
      destruct (load_inv src _ _ _ _ _ _ _ _ I R1) as (ss1 & xs1 & I1 & _). eauto.
    - apply bind_ret in R as (l1 & R1 & R). destruct (force_ok _ _ _ I) as (l0 & E0 & I0 & _).
      rewrite E0 in R1. injection R1 as <-. eauto.
    - apply bind_ret in R as ([l1 tr] & R1 & R).
      pose proof (dropped_inv _ _ _ _ _ _ _ _ I R1). eauto.
  Qed.
End Drop.
