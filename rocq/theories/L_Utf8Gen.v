(** * L_Utf8Gen: a [Utf8Validator] feeding the generic loader. *)
From Coq Require Import Lia.
From Verif Require Export L_Validator.

Local Arguments Nat.ltb : simpl never.
Local Arguments Nat.leb : simpl never.
Local Arguments Nat.eqb : simpl never.
Local Arguments Nat.even : simpl never.
Local Arguments Nat.div : simpl never.

Section Gen.
  Context {E : Type}.
  Notation ops := (request_writer_ops byte E).

  (** A request made when the buffer [buf] held [xs]. *)
  Definition grep (xs : list byte) (buf : vec byte) (r : request byte) (v' : vec byte) : Prop :=
    exists pre, cells (rbuf r) = map Some pre ++ cells v' /\ vlen (rbuf r) = length pre + vlen v'
      /\ roffset r = length pre
      /\ (pre = xs /\ to_append r = vec_new \/ pre = [] /\ to_append r = buf).

  Lemma grep_tracks xs buf : wtracks ops (grep xs buf).
  Proof.
    split.
    - intros w v' n (pre & CE & LE & RO & CS) H. cbn in H. unfold usub in H. rewrite RO in H.
      destruct (Nat.leb_spec (length pre) (vlen (rbuf w))); [|discriminate]. injection H as <-. lia.
    - intros w v' i x (pre & CE & LE & RO & CS) H. cbn in H.
      unfold vec_read in *. rewrite RO, CE, nth_error_app2 in H by (rewrite map_length; lia).
      rewrite map_length in H. replace (length pre + i - length pre) with i in H by lia. exact H.
    - intros w v' i x w' (pre & CE & LE & RO & CS) H. cbn in H. apply bind_ret in H as (v1 & V1 & H).
      injection H as <-. unfold vec_write in *. rewrite RO in V1.
      destruct (Nat.ltb_spec (length pre + i) (vcap (rbuf w))) as [L|]; [|discriminate]. injection V1 as <-.
      unfold vcap in *. rewrite CE, app_length, map_length in L.
      rewrite (proj2 (Nat.ltb_lt _ _)) by lia. eexists. split; [reflexivity|].
      exists pre. cbn. repeat split; auto.
      rewrite CE. rewrite <- (map_length Some pre) at 1. apply list_set_app.
    - intros w v' n w' (pre & CE & LE & RO & CS) H. cbn in H. apply bind_ret in H as (v1 & V1 & H).
      injection H as <-.
      apply set_len_cells in V1 as (-> & L). unfold vcap in L. rewrite CE, app_length, map_length in L.
      unfold vec_set_len, vcap. rewrite (proj2 (Nat.leb_le _ _)) by lia. eexists. split; [reflexivity|].
      exists pre. cbn. repeat split; auto. lia.
  Qed.

  Lemma grep_request grow xs buf : holds buf xs -> forall n w,
    ct_request (gcontrol byte E grow) buf n = Ret w -> exists cells, grep xs buf w (Vec cells 0).
  Proof.
    intros HB n w H. cbn in H. destruct (request_ok (T := byte) grow _ _ n HB) as (r & RQ & CASE).
    rewrite H in RQ. injection RQ as <-. destruct CASE as [(_ & (I & O) & TA & _)|(_ & (I & O) & TA & _)].
    - destruct I as (rest & CE & LE). exists rest, xs. rewrite app_nil_r in *. cbn. rewrite Nat.add_0_r. auto 10.
    - destruct I as (rest & CE & LE). exists rest, []. cbn in *. auto 10.
  Qed.

  Lemma grep_holds xs buf w v ys : grep xs buf w v -> holds v ys ->
    exists pre, holds (rbuf w) (pre ++ ys) /\ roffset w = length pre
      /\ (pre = xs /\ to_append w = vec_new \/ pre = [] /\ to_append w = buf).
  Proof.
    intros (pre & CE & LE & RO & CS) HD. exists pre. split; [|auto].
    eapply holds_shift; eauto.
  Qed.
End Gen.

Section Load.
  Context {E G : Type} (src : source byte E G) (grow : nat -> nat).

  (** [ss]: the segments in the chain; [xs]: the loader's buffer; [held]: the
      bytes the validator keeps. *)
  Definition ulinv (l : loader byte (validator G)) (ss : list (list byte)) (xs held : list byte) : Prop :=
    committed l ss /\ holds (ld_buf l) xs /\ vinv (ld_source l) held.

  Lemma ulinv_new g : ulinv (loader_new (validator_new g)) [] [] [].
  Proof. split; [constructor; reflexivity|]. split; [apply holds_new|apply vinv_new]. Qed.

  Lemma load_utf8_inv l ss xs held i l' tr en : ulinv l ss xs held -> load_utf8 src grow l = Ret (i, l', (tr, en)) ->
    exists ss' xs' held', ulinv l' ss' xs' held' /\
      match en with
      | EndAdvance =>
          i = RErr InvalidSequence /\ ss' = ss /\ held' = held
            /\ 3 < length (skipn (valid_up_to (held ++ accepted tr)) (held ++ accepted tr))
          \/ (exists info, i = ROk info /\ is_done info = false)
             /\ concat ss' ++ xs' = (concat ss ++ xs) ++ firstn (valid_up_to (held ++ accepted tr)) (held ++ accepted tr)
             /\ held' = skipn (valid_up_to (held ++ accepted tr)) (held ++ accepted tr)
      | EndFinish => (exists info, i = ROk info /\ is_done info = true) /\ concat ss' = concat ss ++ xs /\ xs' = [] /\ held' = held
      | _ => (exists e, i = RErr (Inner e)) /\ ss' = ss /\ held' = held
      end.
  Proof.
    intros (CO & HB & VI) H. unfold load_utf8 in H.
    apply bind_ret in H as ([[[[res buf] v1] tr0] en0] & H1 & H). cbn in H.
    pose proof (next_told (gcontrol byte (uerror E) grow) _ (grep_tracks xs (ld_buf l)) (ld_buf l) (grep_request grow _ _ HB) src _ _ _ _ _ _ VI H1) as N.
    destruct en0.
    - destruct N as [(L3 & I' & q & vq & ys & RP & HD & CN)|(L3 & I' & q & vq & RP & HD & AD)].
      + destruct (grep_holds _ _ _ _ _ RP HD) as (pre & HR & RO & CS).
        cbn in CN. apply bind_ret in CN as (dv & DR & CN). injection CN as <- <-. injection H as <- <- <- <-.
        destruct (drain_ok _ _ (roffset q) HR) as (v' & DR' & HV & _); [rewrite RO, app_length; lia|].
        rewrite DR in DR'. injection DR' as <-.
        exists ss, (firstn (roffset q) (pre ++ ys)), held. split; [split; [exact CO|split; [exact HV|exact I']]|].
        left. auto.
      + destruct (grep_holds _ _ _ _ _ RP HD) as (pre & HR & RO & CS).
        set (ds := firstn _ _) in *. cbn in AD. destruct CS as [(-> & TA)|(-> & TA)]; rewrite TA in AD.
        * cbn in AD. injection AD as <- <-. injection H as <- <- <- <-.
          exists ss, (xs ++ ds). eexists. split; [split; [exact CO|split; [exact HR|exact I']]|].
          right. split; [eexists; split; reflexivity|]. rewrite app_assoc. auto.
        * rewrite (holds_len _ _ HB) in AD. cbn in HR. destruct (Nat.eqb_spec (length xs) 0) as [Z0|Z0].
          -- injection AD as <- <-. injection H as <- <- <- <-.
             assert (xs = []) by (destruct xs; [auto|discriminate]). subst xs.
             exists ss, ds. eexists. split; [split; [exact CO|split; [exact HR|exact I']]|].
             right. split; [eexists; split; reflexivity|]. rewrite app_nil_r. auto.
          -- injection AD as <- <-. rewrite (holds_items _ _ HB) in H.
             destruct (commit_ok _ _ _ _ xs CO) as (h' & t' & E1 & C'). rewrite E1 in H. cbn in H.
             injection H as <- <- <- <-.
             exists (ss ++ [xs]), ds. eexists. split; [split; [exact C'|split; [exact HR|exact I']]|].
             right. split; [eexists; split; reflexivity|]. rewrite concat_app. cbn. now rewrite app_nil_r.
    - destruct N as (I' & e & q & vq & ys & RP & HD & CN).
      destruct (grep_holds _ _ _ _ _ RP HD) as (pre & HR & RO & CS).
      cbn in CN. apply bind_ret in CN as (dv & DR & CN). injection CN as <- <-. injection H as <- <- <- <-.
      destruct (drain_ok _ _ (roffset q) HR) as (v' & DR' & HV & _); [rewrite RO, app_length; lia|].
      rewrite DR in DR'. injection DR' as <-.
      exists ss, (firstn (roffset q) (pre ++ ys)), held. split; [split; [exact CO|split; [exact HV|exact I']]|]. eauto.
    - destruct N as (FN & I' & _). cbn in FN. injection FN as <- <-.
      rewrite (holds_items _ _ HB), (holds_len _ _ HB) in H.
      destruct (commit_ok _ _ _ _ xs CO) as (h' & t' & E1 & C'). rewrite E1 in H. cbn in H. injection H as <- <- <- <-.
      exists (ss ++ [xs]), [], held. split; [split; [exact C'|split; [apply holds_new|exact I']]|].
      split; [eexists; split; reflexivity|]. rewrite concat_app. cbn. rewrite app_nil_r. auto.
    - destruct N as (I' & e & CN). cbn in CN. injection CN as <- <-. injection H as <- <- <- <-.
      exists ss, xs, held. split; [split; [exact CO|split; [exact HB|exact I']]|]. eauto.
  Qed.

  Lemma load_utf8_all_inv n : forall l ss xs held rs l', ulinv l ss xs held -> load_utf8_all src grow n l = Ret (rs, l') ->
    Forall load_ok rs -> utf8 (concat ss ++ xs) ->
    exists ss' xs' held', ulinv l' ss' xs' held' /\ utf8 (concat ss' ++ xs')
      /\ concat ss' ++ xs' ++ held' = concat ss ++ xs ++ held ++ concat (map load_produced rs).
  Proof.
    induction n as [|n IH]; intros l ss xs held rs l' I H F U; cbn in H.
    - injection H as <- <-. exists ss, xs, held. cbn. rewrite app_nil_r. auto.
    - apply bind_ret in H as ([[i l1] [tr en]] & H1 & H). apply bind_ret in H as ([rs2 l2] & H2 & H).
      injection H as <- <-. inversion F as [|? ? (info & OK) F2]; subst. cbn in OK. subst i.
      destruct (load_utf8_inv _ _ _ _ _ _ _ _ I H1) as (ss1 & xs1 & held1 & I1 & P).
      destruct en.
      + destruct P as [(X & _)|(_ & EQ & HE)]; [discriminate|].
        destruct (IH _ _ _ _ _ _ I1 H2 F2) as (ss' & xs' & held' & I' & U' & EQ').
        { rewrite EQ. apply utf8_app; [exact U|apply firstn_utf8]. }
        exists ss', xs', held'. split; [auto|]. split; [auto|]. rewrite EQ'. rewrite app_assoc, EQ.
        cbn [map concat]. unfold load_produced at 2. cbn [snd fst]. rewrite HE.
        rewrite <- !app_assoc. f_equal. f_equal. rewrite !app_assoc. now rewrite firstn_skipn.
      + destruct P as ((e & X) & _). discriminate.
      + destruct P as (_ & EQ & -> & ->).
        destruct (IH _ _ _ _ _ _ I1 H2 F2) as (ss' & xs' & held' & I' & U' & EQ').
        { rewrite app_nil_r, EQ. exact U. }
        exists ss', xs', held'. split; [auto|]. split; [auto|]. rewrite EQ', EQ. cbn. now rewrite <- app_assoc.
      + destruct P as ((e & X) & _). discriminate.
  Qed.
End Load.

(** ** Pushing a chunk *)
Section Push.
  Context {E : Type} (grow : nat -> nat).
  Notation K := (gcontrol byte (uerror E) grow).
  Notation uops := (uwriter_ops K).

  Definition uinv (pre held : list byte) (w : uwriter (request byte)) (c : list byte) : Prop :=
    rinv pre (uw_req w) (held ++ c) /\ uw_buffered w = length held.

  Lemma up_len pre held w c : uinv pre held w c -> bw_len uops w = Ret (length c).
  Proof.
    intros (I & B). cbn. pose proof (r_len (E := uerror E) _ _ _ I) as L. cbn in L. rewrite L. cbn.
    unfold usub. rewrite B, app_length, (proj2 (Nat.leb_le _ _)) by lia. f_equal. lia.
  Qed.

  Lemma up_cap pre held w c : uinv pre held w c ->
    bw_capacity uops w = usub (vcap (rbuf (uw_req w)) - length (pre ++ held ++ c)) (length held).
  Proof.
    intros (I & B). cbn. pose proof (r_cap (E := uerror E) _ _ _ I) as L. cbn in L. rewrite L. cbn. now rewrite B.
  Qed.

  Lemma up_push_panic pre held w c x : uinv pre held w c ->
    vcap (rbuf (uw_req w)) - length (pre ++ held ++ c) < length held -> push_item uops w x = Panic.
  Proof.
    intros I L. unfold push_item. rewrite (up_len _ _ _ _ I). cbn [bind]. rewrite (up_cap _ _ _ _ I).
    unfold usub. rewrite (proj2 (Nat.leb_gt _ _)) by auto. reflexivity.
  Qed.

  Lemma up_push_err pre held w c x : uinv pre held w c ->
    length held <= vcap (rbuf (uw_req w)) - length (pre ++ held ++ c) ->
    length c = vcap (rbuf (uw_req w)) - length (pre ++ held ++ c) - length held ->
    push_item uops w x = Ret (w, false).
  Proof.
    intros I L Q. unfold push_item. rewrite (up_len _ _ _ _ I). cbn [bind]. rewrite (up_cap _ _ _ _ I).
    unfold usub. rewrite (proj2 (Nat.leb_le _ _)) by auto. cbn [bind]. now rewrite (proj2 (Nat.eqb_eq _ _)).
  Qed.

  Lemma up_push_ok pre held w c x : uinv pre held w c ->
    length held <= vcap (rbuf (uw_req w)) - length (pre ++ held ++ c) ->
    length c <> vcap (rbuf (uw_req w)) - length (pre ++ held ++ c) - length held ->
    length (pre ++ held ++ c) < vcap (rbuf (uw_req w)) ->
    exists w', push_item uops w x = Ret (w', true) /\ uinv pre held w' (c ++ [x])
      /\ vcap (rbuf (uw_req w')) = vcap (rbuf (uw_req w)) /\ to_append (uw_req w') = to_append (uw_req w).
  Proof.
    intros I L Q LT. unfold push_item. rewrite (up_len _ _ _ _ I). cbn [bind]. rewrite (up_cap _ _ _ _ I).
    unfold usub. rewrite (proj2 (Nat.leb_le _ _)) by auto. cbn [bind]. rewrite (proj2 (Nat.eqb_neq _ _)) by auto.
    destruct I as (I & B).
    destruct (r_write (E := uerror E) _ _ _ x I LT) as (r1 & E1 & T1 & O1 & C1 & L1 & rest & E2).
    cbn [bw_write uwriter_ops]. rewrite app_length in E1. rewrite B.
    change (bw_write (ct_writer K)) with (bw_write (request_writer_ops byte (uerror E))).
    rewrite E1. cbn [bind]. cbn [bw_set_len uwriter_ops uw_req uw_buffered].
    change (bw_set_len (ct_writer K)) with (bw_set_len (request_writer_ops byte (uerror E))).
    destruct (r_set_len (E := uerror E) pre (held ++ c ++ [x]) r1 rest) as (r' & E3 & I3 & T3 & C3).
    { rewrite E2. now rewrite <- !app_assoc. }
    { destruct I as (_ & O). congruence. }
    replace (length (held ++ c ++ [x])) with (length c + 1 + length held) in E3 by (rewrite !app_length; cbn; lia).
    rewrite E3. cbn [bind]. eexists. split; [reflexivity|]. split; [split; [exact I3|exact eq_refl]|]. cbn.
    split; congruence.
  Qed.

  (** The cells free for the writer. *)
  Definition uspare (pre : list byte) (w : uwriter (request byte)) : nat := vcap (rbuf (uw_req w)) - length pre.

  Lemma up_even seg : forall w pre held c, uinv pre held w c ->
    2 * length held <= uspare pre w -> Nat.even (uspare pre w - 2 * length held) = true ->
    let half := (uspare pre w - 2 * length held) / 2 in
    length c <= half ->
    exists w' oks, push_many uops w seg = Ret (w', oks) /\ uinv pre held w' (c ++ firstn (half - length c) seg)
      /\ vcap (rbuf (uw_req w')) = vcap (rbuf (uw_req w)) /\ to_append (uw_req w') = to_append (uw_req w).
  Proof.
    induction seg as [|x seg IH]; intros w pre held c I L2 EV half LC.
    - cbn. rewrite firstn_nil, app_nil_r. exists w, []. auto.
    - assert (HALF : uspare pre w - 2 * length held = 2 * half).
      { unfold half. apply Nat.even_spec in EV as (q & Q). rewrite Q. f_equal.
        rewrite Nat.mul_comm, Nat.div_mul; lia. }
      cbn [push_many]. unfold uspare in *.
      assert (LL : length (pre ++ held ++ c) = length pre + length held + length c) by (rewrite !app_length; lia).
      destruct (Nat.eq_dec (length c) half) as [Q|Q].
      + assert (P1 : push_item uops w x = Ret (w, false)).
        { apply (up_push_err _ _ _ _ x I); rewrite LL; lia. }
        rewrite P1. cbn [bind].
        destruct (IH w pre held c I L2 EV LC) as (w' & oks & E1 & I1 & A & B). fold half in I1. rewrite E1. cbn [bind].
        exists w', (false :: oks). split; [reflexivity|]. rewrite Q, Nat.sub_diag in *. auto.
      + destruct (up_push_ok _ _ _ _ x I) as (w1 & E1 & I1 & C1 & T1); [lia|lia|lia|].
        rewrite E1. cbn [bind].
        destruct (IH w1 pre held (c ++ [x]) I1) as (w' & oks & E2 & I2 & A & B);
          unfold uspare in *; rewrite ?C1; auto.
        { rewrite app_length. cbn [length]. fold half. lia. }
        rewrite E2. cbn [bind]. exists w', (true :: oks). split; [reflexivity|].
        rewrite C1 in *. fold half in I2. rewrite T1 in B. split; [|auto].
        rewrite app_length in I2. cbn [length] in I2. rewrite <- app_assoc in I2.
        replace (half - length c) with (S (half - (length c + 1))) by lia. exact I2.
  Qed.

  Lemma up_odd seg : forall w pre held c, uinv pre held w c ->
    2 * length held <= uspare pre w -> Nat.even (uspare pre w - 2 * length held) = false ->
    length c + length seg <= uspare pre w - length held ->
    if length c + length seg <=? uspare pre w - 2 * length held + 1 then
      exists w' oks, push_many uops w seg = Ret (w', oks) /\ uinv pre held w' (c ++ seg)
        /\ vcap (rbuf (uw_req w')) = vcap (rbuf (uw_req w)) /\ to_append (uw_req w') = to_append (uw_req w)
    else length c <= uspare pre w - 2 * length held + 1 -> push_many uops w seg = Panic.
  Proof.
    induction seg as [|x seg IH]; intros w pre held c I L2 EV LF.
    - cbn [push_many length]. rewrite app_nil_r.
      destruct (Nat.leb_spec (length c + 0) (uspare pre w - 2 * length held + 1)); [eauto 10|intros; exfalso; lia].
    - cbn [push_many length] in *.
      assert (LL : length (pre ++ held ++ c) = length pre + length held + length c) by (rewrite !app_length; lia).
      unfold uspare in *. remember (vcap (rbuf (uw_req w))) as V eqn:EQV.
      destruct (Nat.le_gt_cases (length c) (V - length pre - 2 * length held)) as [LE|GT].
      + destruct (up_push_ok _ _ _ _ x I) as (w1 & E1 & I1 & C1 & T1).
        * rewrite <- EQV. lia.
        * rewrite <- EQV, LL. intros Q.
          assert (Z : V - length pre - 2 * length held = 2 * length c) by lia.
          rewrite Z, Nat.even_mul in EV. discriminate.
        * rewrite <- EQV. lia.
        * rewrite E1. cbn [bind]. rewrite <- EQV in C1.
          specialize (IH w1 pre held (c ++ [x]) I1). unfold uspare in IH. rewrite C1 in IH.
          specialize (IH L2 EV). rewrite app_length in IH. cbn [length] in IH.
          replace (length c + 1 + length seg) with (length c + S (length seg)) in IH by lia.
          specialize (IH LF).
          destruct (length c + S (length seg) <=? V - length pre - 2 * length held + 1).
          -- destruct IH as (w' & oks & E2 & I2 & A & B). rewrite E2. cbn [bind]. exists w', (true :: oks).
             split; [reflexivity|]. rewrite <- app_assoc in I2. rewrite T1 in B. auto.
          -- intros _. rewrite IH by lia. reflexivity.
      + destruct (Nat.leb_spec (length c + S (length seg)) (V - length pre - 2 * length held + 1)) as [X|X]; [lia|].
        intros LC. rewrite (up_push_panic _ _ _ _ x I) by lia. reflexivity.
  Qed.

  Lemma up_kept seg w pre held : uinv pre held w [] -> length seg <= uspare pre w - length held ->
    match kept_utf8 (uspare pre w) (length held) seg with
    | Some k => exists w' oks, push_many uops w seg = Ret (w', oks) /\ uinv pre held w' k
        /\ vcap (rbuf (uw_req w')) = vcap (rbuf (uw_req w)) /\ to_append (uw_req w') = to_append (uw_req w)
    | None => push_many uops w seg = Panic
    end.
  Proof.
    intros I L. unfold kept_utf8. destruct seg as [|x seg]; [cbn; eauto 10|].
    set (sg := x :: seg) in *.
    destruct (Nat.ltb_spec (uspare pre w) (2 * length held)) as [L2|L2].
    - unfold sg. cbn [push_many]. rewrite (up_push_panic _ _ _ _ x I); [reflexivity|].
      unfold uspare in *. rewrite app_nil_r, app_length. lia.
    - destruct (Nat.even (uspare pre w - 2 * length held)) eqn:EV.
      + destruct (up_even sg w pre held [] I L2 EV) as (w' & oks & A); [cbn; lia|]. cbn in A.
        rewrite Nat.sub_0_r in A. eauto.
      + pose proof (up_odd sg w pre held [] I L2 EV L) as A. cbn [length Nat.add app] in A.
        destruct (length sg <=? uspare pre w - 2 * length held + 1); [exact A|apply A; lia].
  Qed.
End Push.

(** ** One chunk of an iterator source *)
Section Chunk.
  Context (grow : nat -> nat) (GR : forall n, n <= grow n).
  Notation K := (gcontrol byte (uerror Never) grow).

  Lemma run_push_all_any {W R G} (B : bwriter W byte Never R) seg : forall w tr (g : G),
    run_writer B (push_all seg (WAdvance g)) w tr =
      (' (w', oks) <- push_many B w seg ;;
       r <- bw_advance B w' ;;
       Ret (r, g, tr ++ map (fun p : bool * byte => if fst p then PushOk (snd p) else PushErr (snd p)) (combine oks seg), EndAdvance)).
  Proof.
    induction seg as [|x seg IH]; intros w tr g; cbn -[push_item].
    - destruct (bw_advance B w); cbn; auto. now rewrite app_nil_r.
    - destruct (push_item B w x) as [[w1 ok]| | |]; cbn -[push_item]; auto.
      rewrite IH. destruct (push_many B w1 seg) as [[w2 oks]| | |]; cbn -[push_item]; auto.
      destruct (bw_advance B w2); cbn; auto. rewrite <- app_assoc. reflexivity.
  Qed.

  Lemma u_request_gen (v : validator (list (list byte))) held buf xs n : vinv v held -> holds buf xs ->
    exists w pre, u_request K (buffered v) (rest v) buf n = Ret w /\ uinv pre held w []
      /\ uspare pre w = (if length held + n <=? vcap buf - length xs then vcap buf - length xs else grow (length held + n))
      /\ (pre = xs /\ to_append (uw_req w) = vec_new \/ pre = [] /\ to_append (uw_req w) = buf).
  Proof.
    intros (F & L & L3 & Z) HB. unfold u_request. cbn [ct_request gcontrol].
    destruct (request_ok (T := byte) grow _ _ (buffered v + n) HB) as (r & RQ & CASE). rewrite RQ. cbn [bind].
    assert (LR : buffered v <= length (rest v)) by (rewrite <- F, firstn_length in L; lia).
    rewrite (proj2 (Nat.leb_le _ _)) by auto. rewrite F.
    pose proof (holds_cap _ _ HB) as HC.
    assert (X : exists pre, rinv pre r [] /\ length held + n <= vcap (rbuf r) - length pre
        /\ vcap (rbuf r) - length pre = (if length held + n <=? vcap buf - length xs then vcap buf - length xs else grow (length held + n))
        /\ (pre = xs /\ to_append r = vec_new \/ pre = [] /\ to_append r = buf)).
    { rewrite <- L in CASE. destruct CASE as [(LE & I & TA & RB)|(LT & I & TA & VC)].
      - rewrite (proj2 (Nat.leb_le _ _)) by auto. exists xs. rewrite RB. split; [exact I|auto].
      - rewrite (proj2 (Nat.leb_gt _ _)) by auto. exists []. cbn. rewrite Nat.sub_0_r, VC. split; [exact I|auto]. }
    destruct X as (pre & I & SP & SPE & CS). pose proof I as ((rs & CE & LE) & O). rewrite app_nil_r in *.
    assert (LP : length pre <= vcap (rbuf r)) by (unfold vcap; rewrite CE, app_length, map_length; lia).
    destruct (r_write_range (E := uerror Never) pre held r [] O) as (r1 & E1 & T1 & O1 & C1 & rest1 & R1).
    { exists rs. now rewrite app_nil_r. }
    { rewrite app_nil_r. lia. }
    cbn [length ct_writer gcontrol] in E1 |- *. rewrite E1. cbn [bind app] in *.
    destruct (r_set_len (E := uerror Never) pre held r1 rest1 R1) as (r2 & E2 & I2 & T2 & C2); [congruence|].
    rewrite L in E2. rewrite E2. cbn [bind]. eexists _, pre. split; [reflexivity|].
    split; [split; [rewrite app_nil_r; exact I2|cbn; congruence]|]. unfold uspare. cbn [uw_req].
    split; [congruence|]. rewrite T2, T1. exact CS.
  Qed.

  Lemma u_advance_gen pre held w c : uinv pre held w c -> exists r, u_advance K w = Ret r.
  Proof.
    intros (I & B). unfold u_advance. cbn [ct_writer gcontrol]. rewrite (r_slice _ _ _ I). cbn [bind].
    set (l := held ++ c) in *.
    assert (LV : valid_up_to l <= length l).
    { destruct (v_split l) as (t & q & _ & EQ & _ & -> & _). rewrite EQ, app_length. lia. }
    destruct (3 <? length (skipn (valid_up_to l) l)).
    - cbn. destruct I as (HB & O). destruct (drain_ok _ _ (roffset (uw_req w)) HB) as (v' & -> & _); [rewrite O, app_length; lia|].
      cbn. eauto.
    - assert (SH : exists q, shrink_to (request_writer_ops byte (uerror Never)) (uw_req w) (valid_up_to l) = Ret q).
      { unfold shrink_to. rewrite (r_len _ _ _ I). cbn [bind]. rewrite (proj2 (Nat.leb_le _ _)) by auto.
        destruct (valid_up_to l =? length l); [eauto|]. rewrite (r_read _ _ _ I) by lia. cbn [bind].
        destruct I as ((rs & CE & LE) & O).
        destruct (r_set_len (E := uerror Never) pre (firstn (valid_up_to l) l) (uw_req w) (map Some (skipn (valid_up_to l) l) ++ rs)) as (r2 & E2 & _); auto.
        { rewrite CE, app_assoc, <- map_app, <- app_assoc, firstn_skipn. reflexivity. }
        rewrite firstn_length, Nat.min_l in E2 by auto. eauto. }
      destruct SH as (q & ->). cbn. destruct (vlen (to_append q) =? 0); cbn; eauto.
  Qed.

  Lemma uinv_accepted pre held w c w' seg oks c' : uinv pre held w c ->
    push_many (uwriter_ops K) w seg = Ret (w', oks) -> uinv pre held w' c' ->
    c' = fold_left accept (map (fun p : bool * byte => if fst p then PushOk (snd p) else PushErr (snd p)) (combine oks seg)) c.
  Proof.
    revert w c oks. induction seg as [|x seg IH]; intros w c oks I P I'; cbn in P.
    - injection P as <- <-. destruct I as ((H & _) & _), I' as ((H' & _) & _).
      apply holds_items in H. apply holds_items in H'. rewrite H in H'. cbn.
      apply app_inv_head in H'. apply app_inv_head in H'. auto.
    - apply bind_ret in P as ([w1 ok] & P1 & P). apply bind_ret in P as ([w2 oks2] & P2 & P). injection P as <- <-.
      cbn [combine map fold_left fst snd].
      assert (I1 : uinv pre held w1 (if ok then c ++ [x] else c)).
      { destruct (Nat.lt_ge_cases (vcap (rbuf (uw_req w)) - length (pre ++ held ++ c)) (length held)) as [LT|GE].
        - rewrite (up_push_panic (E := Never) grow _ _ _ _ x I LT) in P1. discriminate.
        - destruct (Nat.eq_dec (length c) (vcap (rbuf (uw_req w)) - length (pre ++ held ++ c) - length held)) as [Q|Q].
          + rewrite (up_push_err (E := Never) grow _ _ _ _ x I GE Q) in P1. injection P1 as <- <-. exact I.
          + destruct (Nat.lt_ge_cases (length (pre ++ held ++ c)) (vcap (rbuf (uw_req w)))) as [LT|GE2].
            * destruct (up_push_ok (E := Never) grow _ _ _ _ x I GE Q LT) as (w1' & E1 & I1 & _). rewrite E1 in P1. injection P1 as <- <-. exact I1.
            * exfalso. unfold push_item in P1. rewrite (up_len (E := Never) grow _ _ _ _ I) in P1. cbn [bind] in P1.
              rewrite (up_cap (E := Never) grow _ _ _ _ I) in P1. unfold usub in P1. rewrite (proj2 (Nat.leb_le _ _)) in P1 by auto.
              cbn [bind] in P1. rewrite (proj2 (Nat.eqb_neq _ _)) in P1 by auto.
              destruct I as ((HB & O) & B). cbn in P1. rewrite O, B in P1. unfold vec_write in P1.
              rewrite !app_length in GE2. rewrite (proj2 (Nat.ltb_ge _ _)) in P1 by lia. discriminate. }
      rewrite (IH _ _ _ I1 P2 I'). destruct ok; reflexivity.
  Qed.

  (** One load of a chunk: what it keeps, or a panic. *)
  Lemma load_utf8_chunk (l : loader byte (validator (list (list byte)))) ss xs held seg more :
    ulinv l ss xs held -> vsource (ld_source l) = seg :: more ->
    let spare := if length held + length seg <=? vcap (ld_buf l) - length xs
                 then vcap (ld_buf l) - length xs else grow (length held + length seg) in
    match kept_utf8 spare (length held) seg with
    | Some k => exists i l' tr, load_utf8 iterator_source grow l = Ret (i, l', (tr, EndAdvance))
        /\ accepted tr = k /\ vsource (ld_source l') = more
        /\ match i with
           | ROk _ => vcap (ld_buf l') - vlen (ld_buf l') = spare - valid_up_to (held ++ k)
           | RErr _ => True
           end
    | None => load_utf8 iterator_source grow l = Panic
    end.
  Proof.
    intros (CO & HB & VI) S spare. unfold load_utf8, validator_next. rewrite S. cbn [iterator_source run_source].
    destruct (u_request_gen _ _ _ _ (length seg) VI HB) as (w & pre & E1 & I & SP & CS).
    fold spare in SP. cbn [ct_request ucontrol ct_writer]. rewrite E1. cbn [bind].
    rewrite run_push_all_any.
    assert (LS : length seg <= uspare pre w - length held).
    { rewrite SP. unfold spare. destruct (Nat.leb_spec (length held + length seg) (vcap (ld_buf l) - length xs)); [lia|].
      pose proof (GR (length held + length seg)). lia. }
    pose proof (up_kept (E := Never) grow seg w pre held I LS) as KP. rewrite SP in KP.
    destruct (kept_utf8 spare (length held) seg) as [k|].
    - destruct KP as (w' & oks & P & I' & VC & TA). rewrite P. cbn [bind app].
      pose proof (uinv_accepted _ _ _ _ _ _ _ _ I P I') as ACC.
      destruct (u_advance_gen _ _ _ _ I') as (r & RA).
      cbn [bw_advance uwriter_ops]. rewrite RA. cbn [bind].
      assert (FIN : exists res buf v', (r = IAdvance (buffered v') (rest v') (res, buf) \/ r = IErr (res, buf) \/ r = IFinish (res, buf))
                 /\ (forall b len cap, res = Advanced b len cap -> b = ld_buf l) /\ (forall b, res <> Finished b)
                 /\ vsource v' = more
                 /\ match res with Canceled _ => True | _ => vcap buf - vlen buf = spare - valid_up_to (held ++ k) end).
      { unfold u_advance in RA. apply bind_ret in RA as (sl & SL & RA). destruct (3 <? _).
        - apply bind_ret in RA as ([res buf] & CN & RA). injection RA as <-. cbn in CN.
          apply bind_ret in CN as (dv & _ & CN). injection CN as <- <-.
          exists (Canceled InvalidSequence), dv, (Validator 0 [] more). split; [auto|]. split; [discriminate|split; [discriminate|split; [reflexivity|exact Logic.I]]].
        - apply bind_ret in RA as (q & SH & RA). apply bind_ret in RA as ([res buf] & AD & RA). injection RA as <-.
          eexists res, buf, (Validator _ _ more). split; [left; cbn; reflexivity|].
          assert (TQ : to_append q = to_append (uw_req w') /\ vcap (rbuf q) - vlen (rbuf q) = spare - valid_up_to (held ++ k)).
          { destruct I' as (I' & _). cbn [ct_writer gcontrol] in SL, SH. rewrite (r_slice _ _ _ I') in SL. injection SL as <-.
            destruct (r_shrink_inv (E := uerror Never) _ _ _ _ _ I' SH) as ((HQ & OQ) & TQ & CQ). split; [exact TQ|].
            rewrite CQ, VC, (holds_len _ _ HQ), app_length, firstn_length, Nat.min_l; [unfold uspare in SP; lia|].
            destruct (v_split (held ++ k)) as (t & q0 & _ & EQ & _ & -> & _). rewrite EQ, app_length. lia. }
          destruct TQ as (TQ & SQ).
          cbn in AD. destruct (Nat.eqb_spec (vlen (to_append q)) 0) as [Z0|Z0].
          + injection AD as <- <-. split; [discriminate|]. split; [discriminate|split; [reflexivity|exact SQ]].
          + injection AD as <- <-. split; [|split; [discriminate|split; [reflexivity|exact SQ]]].
            intros b len cap X. injection X as <- <- <-. rewrite TQ, TA in *.
            destruct CS as [(_ & X)|(_ & X)]; [rewrite X in Z0; cbn in Z0; lia|exact X]. }
      destruct FIN as (res & buf & v' & RR & AV & NF & VS & SF).
      assert (V1 : exists v1, vsource v1 = more /\
         (match r with
          | IAdvance b r0 res => Ret (res, Validator b r0 more, map (fun p : bool * byte => if fst p then PushOk (snd p) else PushErr (snd p)) (combine oks seg), EndAdvance)
          | IErr res | IFinish res => Ret (res, Validator (buffered (ld_source l)) (rest (ld_source l)) more, map (fun p : bool * byte => if fst p then PushOk (snd p) else PushErr (snd p)) (combine oks seg), EndAdvance)
          end) = Ret (res, buf, v1, map (fun p : bool * byte => if fst p then PushOk (snd p) else PushErr (snd p)) (combine oks seg), EndAdvance)).
      { destruct RR as [-> |[-> | ->]]; eexists; (split; [|reflexivity]); reflexivity. }
      destruct V1 as (v1 & VS1 & EQ1).
      match goal with |- exists i l' tr, bind ?X _ = _ /\ _ => assert (EQ2 : X = Ret (res, buf, v1, map (fun p : bool * byte => if fst p then PushOk (snd p) else PushErr (snd p)) (combine oks seg), EndAdvance)) end.
      { rewrite <- EQ1. destruct r; reflexivity. }
      rewrite EQ2. cbn [bind].
      destruct res as [len cap|b len cap|b|e].
      + eexists _, _, _. split; [reflexivity|]. split; [symmetry; exact ACC|split; [exact VS1|exact SF]].
      + destruct (commit_ok _ _ _ _ (items b) CO) as (h' & t' & E3 & _). rewrite E3. cbn [bind].
        eexists _, _, _. split; [reflexivity|]. split; [symmetry; exact ACC|split; [exact VS1|exact SF]].
      + exfalso. eapply NF; eauto.
      + eexists _, _, _. split; [reflexivity|]. split; [symmetry; exact ACC|split; [exact VS1|exact SF]].
    - rewrite KP. reflexivity.
  Qed.
End Chunk.
