(** * L_GenSeq2: writers, loads and the iterator source over the generic sequence. *)
From Coq Require Import Lia.
From Verif Require Export M_GenSeq S_GenSeq L_Base L_GenSeq.

Local Arguments Nat.ltb : simpl never.
Local Arguments Nat.leb : simpl never.
Local Arguments Nat.eqb : simpl never.
Local Arguments Nat.even : simpl never.
Local Arguments Nat.div : simpl never.

(** ** Vec *)
Section Vec.
  Context {T : Type}.
  Implicit Types (v : vec T) (xs : list T).

  Lemma somes_map xs : somes (map Some xs) = xs.
  Proof. unfold somes. induction xs as [|x xs IH]; cbn; [auto|now rewrite IH]. Qed.

  Lemma holds_items v xs : holds v xs -> items v = xs.
  Proof.
    intros (rest & E & L). unfold items. rewrite E, L.
    rewrite <- (map_length Some xs), firstn_length_app. apply somes_map.
  Qed.
  Lemma holds_len v xs : holds v xs -> vlen v = length xs.
  Proof. intros (? & _ & L). auto. Qed.
  Lemma holds_cap v xs : holds v xs -> length xs <= vcap v.
  Proof. intros (rest & E & L). unfold vcap. rewrite E, app_length, map_length. lia. Qed.
  Lemma holds_new : holds (T := T) vec_new [].
  Proof. exists []. auto. Qed.
  Lemma holds_with_capacity n : holds (T := T) (with_capacity n) [].
  Proof. exists (repeat None n). auto. Qed.
  Lemma vcap_with_capacity n : vcap (T := T) (with_capacity n) = n.
  Proof. unfold vcap. cbn. apply repeat_length. Qed.

  Lemma holds_read v xs i : holds v xs -> i < length xs -> exists x, nth_error xs i = Some x /\ vec_read v i = Ret x.
  Proof.
    intros (rest & E & L) Hi. unfold vec_read. rewrite E.
    rewrite nth_error_app1 by (now rewrite map_length).
    destruct (nth_error xs i) as [x|] eqn:N; [|apply nth_error_None in N; lia].
    exists x. split; auto. rewrite nth_error_map, N. reflexivity.
  Qed.

  Lemma holds_write v xs x : holds v xs -> length xs < vcap v ->
    exists v', vec_write v (length xs) x = Ret v' /\ vcap v' = vcap v /\ vlen v' = vlen v
      /\ exists rest, cells v' = map Some (xs ++ [x]) ++ rest.
  Proof.
    intros (rest & E & L) H. unfold vec_write. rewrite (proj2 (Nat.ltb_lt _ _)) by auto.
    eexists. split; [reflexivity|]. unfold vcap in *. cbn. rewrite set_length. split; [auto|split; [auto|]].
    rewrite E, app_length, map_length in H. destruct rest as [|o rest]; [cbn in H; lia|].
    exists rest. rewrite E, set_spec by (rewrite app_length, map_length; cbn; lia).
    rewrite <- (map_length Some xs) at 1. rewrite firstn_length_app.
    replace (skipn (S (length xs)) (map Some xs ++ o :: rest)) with rest.
    - rewrite map_app, <- app_assoc. reflexivity.
    - replace (S (length xs)) with (length (map Some xs) + 1) by (rewrite map_length; lia).
      rewrite <- skipn_add, skipn_length_app. reflexivity.
  Qed.
  Lemma write_out v xs x : holds v xs -> vcap v <= length xs -> vec_write v (length xs) x = UB.
  Proof. intros _ H. unfold vec_write. rewrite (proj2 (Nat.ltb_ge _ _)); auto. Qed.

  Lemma set_len_ok v xs rest : cells v = map Some xs ++ rest ->
    exists v', vec_set_len v (length xs) = Ret v' /\ holds v' xs /\ vcap v' = vcap v.
  Proof.
    intros E. unfold vec_set_len. rewrite (proj2 (Nat.leb_le _ _)).
    - eexists. split; [reflexivity|]. split; [exists rest; auto|reflexivity].
    - unfold vcap. rewrite E, app_length, map_length. lia.
  Qed.

  Lemma drain_ok v xs n : holds v xs -> n <= length xs ->
    exists v', vec_drain_from v n = Ret v' /\ holds v' (firstn n xs) /\ vcap v' = vcap v.
  Proof.
    intros (rest & E & L) H. unfold vec_drain_from. rewrite L, (proj2 (Nat.leb_le _ _)) by auto.
    eexists. split; [reflexivity|]. split.
    - exists (repeat None (vcap v - n)). cbn. split; [|rewrite firstn_length; lia].
      f_equal. rewrite E, firstn_app, map_length. replace (n - length xs) with 0 by lia.
      cbn. rewrite app_nil_r. apply firstn_map.
    - unfold vcap. cbn. rewrite app_length, repeat_length, firstn_length, E, app_length, map_length. lia.
  Qed.
End Vec.

(** ** The writer *)
Section Writer.
  Context {T E : Type}.
  Notation ops := (request_writer_ops T E).
  Implicit Types (r : request T) (pre c : list T).

  (** [pre]: what the buffer held at the request; [c]: what was written. *)
  Definition rinv pre r c : Prop := holds (rbuf r) (pre ++ c) /\ roffset r = length pre.

  Lemma r_len pre r c : rinv pre r c -> bw_len ops r = Ret (length c).
  Proof.
    intros (H & O). cbn. unfold usub. rewrite (holds_len _ _ H), O, app_length.
    rewrite (proj2 (Nat.leb_le _ _)) by lia. f_equal. lia.
  Qed.

  Lemma r_cap pre r c : rinv pre r c -> bw_capacity ops r = Ret (vcap (rbuf r) - length (pre ++ c)).
  Proof.
    intros (H & O). cbn. unfold usub. rewrite (holds_len _ _ H).
    rewrite (proj2 (Nat.leb_le _ _)) by (eapply holds_cap; eauto). reflexivity.
  Qed.

  Lemma r_read pre r c : rinv pre r c -> forall n i, i + n <= length c ->
    read_range ops r i n = Ret (firstn n (skipn i c)).
  Proof.
    intros (H & O) n. induction n as [|n IH]; intros i L; cbn; auto.
    destruct (holds_read _ _ (roffset r + i) H) as (x & N & R); [rewrite app_length; lia|].
    rewrite O, nth_error_app2 in N by lia. rewrite R. cbn.
    replace (length pre + i - length pre) with i in N by lia.
    rewrite (IH (S i)) by lia. cbn [bind]. f_equal.
    apply nth_error_split in N as (a & b & -> & <-).
    replace (S (length a)) with (length a + 1) by lia. rewrite <- skipn_add, skipn_length_app. reflexivity.
  Qed.

  Lemma r_slice pre r c : rinv pre r c -> as_slice ops r = Ret c.
  Proof.
    intros I. unfold as_slice. rewrite (r_len _ _ _ I). cbn [bind].
    rewrite (r_read _ _ _ I) by lia. cbn. now rewrite firstn_all.
  Qed.

  Lemma r_write pre r c x : rinv pre r c -> length (pre ++ c) < vcap (rbuf r) ->
    exists r1, bw_write ops r (length c) x = Ret r1
      /\ to_append r1 = to_append r /\ roffset r1 = roffset r /\ vcap (rbuf r1) = vcap (rbuf r)
      /\ vlen (rbuf r1) = vlen (rbuf r)
      /\ exists rest, cells (rbuf r1) = map Some (pre ++ c ++ [x]) ++ rest.
  Proof.
    intros (H & O) L. cbn. destruct (holds_write _ _ x H L) as (v' & E1 & E2 & E3 & rest & E4).
    rewrite O, <- app_length, E1. cbn. eexists. split; [reflexivity|]. cbn.
    repeat split; auto. exists rest. now rewrite app_assoc.
  Qed.

  Lemma r_set_len pre c r rest : cells (rbuf r) = map Some (pre ++ c) ++ rest -> roffset r = length pre ->
    exists r', bw_set_len ops r (length c) = Ret r' /\ rinv pre r' c /\ to_append r' = to_append r
      /\ vcap (rbuf r') = vcap (rbuf r).
  Proof.
    intros C O. cbn. rewrite O. replace (length c + length pre) with (length (pre ++ c)) by (rewrite app_length; lia).
    destruct (set_len_ok _ _ _ C) as (v' & E1 & E2 & E3). rewrite E1. cbn.
    eexists. split; [reflexivity|]. cbn. split; [split; auto|auto].
  Qed.

  Lemma r_push pre r c x : rinv pre r c ->
    push_item ops r x =
      if length c =? vcap (rbuf r) - length (pre ++ c) then Ret (r, false)
      else push_item ops r x.
  Proof.
    intros I. destruct (Nat.eqb_spec (length c) (vcap (rbuf r) - length (pre ++ c))) as [Q|Q]; auto.
    unfold push_item. rewrite (r_len _ _ _ I). cbn [bind]. rewrite (r_cap _ _ _ I). cbn [bind].
    rewrite (proj2 (Nat.eqb_eq _ _)); auto.
  Qed.

  Lemma r_push_err pre r c x : rinv pre r c -> length c = vcap (rbuf r) - length (pre ++ c) ->
    push_item ops r x = Ret (r, false).
  Proof. intros I Q. rewrite (r_push _ _ _ _ I), (proj2 (Nat.eqb_eq _ _)); auto. Qed.

  Lemma r_push_ok pre r c x : rinv pre r c -> length c <> vcap (rbuf r) - length (pre ++ c) ->
    length (pre ++ c) < vcap (rbuf r) ->
    exists r', push_item ops r x = Ret (r', true) /\ rinv pre r' (c ++ [x]) /\ to_append r' = to_append r
      /\ vcap (rbuf r') = vcap (rbuf r).
  Proof.
    intros I Q L. unfold push_item. rewrite (r_len _ _ _ I). cbn [bind]. rewrite (r_cap _ _ _ I). cbn [bind].
    rewrite (proj2 (Nat.eqb_neq _ _)) by auto.
    destruct (r_write _ _ _ x I L) as (r1 & E1 & T1 & O1 & C1 & L1 & rest & E2). rewrite E1. cbn [bind].
    destruct I as (H & O).
    destruct (r_set_len pre (c ++ [x]) r1 rest E2) as (r' & E3 & I' & T2 & C2); [congruence|].
    rewrite app_length in E3. cbn [length] in E3. rewrite E3. cbn [bind].
    eexists. split; [reflexivity|]. split; [auto|]. split; congruence.
  Qed.

  Lemma r_push_ub pre r c x : rinv pre r c -> length c <> vcap (rbuf r) - length (pre ++ c) ->
    vcap (rbuf r) <= length (pre ++ c) -> push_item ops r x = UB.
  Proof.
    intros I Q L. unfold push_item. rewrite (r_len _ _ _ I). cbn [bind]. rewrite (r_cap _ _ _ I). cbn [bind].
    rewrite (proj2 (Nat.eqb_neq _ _)) by auto. destruct I as (H & O). cbn.
    rewrite O, <- app_length, (write_out _ _ x H L). reflexivity.
  Qed.

  (** What one [push_item] that returns does. *)
  Lemma r_push_inv pre r c x r' ok : rinv pre r c -> push_item ops r x = Ret (r', ok) ->
    rinv pre r' (if ok then c ++ [x] else c) /\ to_append r' = to_append r /\ vcap (rbuf r') = vcap (rbuf r).
  Proof.
    intros I H.
    destruct (Nat.eq_dec (length c) (vcap (rbuf r) - length (pre ++ c))) as [Q|Q].
    - rewrite (r_push_err _ _ _ _ I Q) in H. injection H as <- <-. auto.
    - destruct (Nat.lt_ge_cases (length (pre ++ c)) (vcap (rbuf r))) as [L|L].
      + destruct (r_push_ok _ _ _ x I Q L) as (r0 & E0 & I' & TA & VC). rewrite E0 in H. injection H as <- <-. auto.
      + rewrite (r_push_ub _ _ _ _ I Q L) in H. discriminate.
  Qed.

  Lemma r_write_range pre ys : forall r c, roffset r = length pre ->
    (exists rest, cells (rbuf r) = map Some (pre ++ c) ++ rest) ->
    length (pre ++ c) + length ys <= vcap (rbuf r) ->
    exists r1, write_range ops r (length c) ys = Ret r1
      /\ to_append r1 = to_append r /\ roffset r1 = roffset r /\ vcap (rbuf r1) = vcap (rbuf r)
      /\ exists rest, cells (rbuf r1) = map Some (pre ++ c ++ ys) ++ rest.
  Proof.
    induction ys as [|y ys IH]; intros r c O (rest & C) L.
    - cbn. eexists. split; [reflexivity|]. rewrite app_nil_r. repeat split; eauto.
    - cbn [write_range length] in *.
      (* forget the length field for one write *)
      set (r0 := Request (to_append r) (Vec (cells (rbuf r)) (length (pre ++ c))) (roffset r)).
      assert (I0 : rinv pre r0 c) by (split; [exists rest; split; [exact C|reflexivity]|exact O]).
      destruct (r_write pre r0 c y I0) as (r1 & E1 & T1 & O1 & C1 & L1 & rest1 & E2).
      { unfold r0, vcap in *. cbn. lia. }
      assert (E1' : exists r1', bw_write ops r (length c) y = Ret r1' /\ to_append r1' = to_append r
                 /\ roffset r1' = roffset r /\ cells (rbuf r1') = cells (rbuf r1)).
      { revert E1. unfold r0. cbn. unfold vec_write, vcap. cbn.
        destruct (roffset r + length c <? length (cells (rbuf r))); cbn; [|discriminate].
        intros Q. injection Q as <-. eexists. split; [reflexivity|]. cbn. auto. }
      destruct E1' as (r1' & E1' & T1' & O1' & CC). rewrite E1'. cbn [bind].
      assert (V1 : vcap (rbuf r1') = vcap (rbuf r)) by (unfold vcap in *; rewrite CC; exact C1).
      destruct (IH r1' (c ++ [y])) as (r2 & F1 & F2 & F3 & F4 & rest2 & F5).
      + congruence.
      + exists rest1. now rewrite CC, E2.
      + rewrite V1. rewrite !app_length in *. cbn. lia.
      + rewrite app_length in F1. cbn [length] in F1. rewrite Nat.add_1_r in F1. rewrite F1.
        eexists. split; [reflexivity|]. rewrite F2, F3, F4. repeat split; auto.
        exists rest2. rewrite F5. now rewrite <- app_assoc.
  Qed.

  Lemma write_range_vlen ys : forall r i r1, write_range ops r i ys = Ret r1 -> vlen (rbuf r1) = vlen (rbuf r).
  Proof.
    induction ys as [|y ys IH]; intros r i r1 H; cbn [write_range] in H; [now injection H as <-|].
    apply bind_ret in H as (r0 & H0 & H). rewrite (IH _ _ _ H). cbn in H0. apply bind_ret in H0 as (v & H0 & H1).
    injection H1 as <-. cbn. unfold vec_write in H0. destruct (_ <? _); [|discriminate]. now injection H0 as <-.
  Qed.

  Lemma stored_length (xs ys : list T) : length (stored xs ys) = length ys.
  Proof. unfold stored. rewrite app_length, firstn_length, skipn_length. lia. Qed.

  Lemma r_edit pre r c f : rinv pre r c ->
    exists r', edit_slice ops r f = Ret (r', f c) /\ rinv pre r' (stored (f c) c) /\ to_append r' = to_append r
      /\ vcap (rbuf r') = vcap (rbuf r).
  Proof.
    intros I. unfold edit_slice, as_slice. rewrite (r_len _ _ _ I). cbn [bind].
    pose proof (r_read _ _ _ I (length c) 0) as RR. rewrite RR by lia. cbn [bind skipn]. rewrite firstn_all.
    destruct I as ((rest & C & LN) & O).
    destruct (r_write_range pre (stored (f c) c) r [] O) as (r1 & E1 & T1 & O1 & C1 & rest1 & E2).
    - exists (map Some c ++ rest). now rewrite app_nil_r, C, map_app, app_assoc.
    - rewrite app_nil_r, stored_length, <- app_length. unfold vcap. rewrite C, (app_length (map Some (pre ++ c))), map_length. lia.
    - cbn [length] in E1. rewrite E1. cbn [bind]. exists r1. split; [reflexivity|]. split; [|auto].
      split; [|congruence]. exists rest1. split; [exact E2|].
      rewrite (write_range_vlen _ _ _ _ E1), LN, !app_length, stored_length. reflexivity.
  Qed.

  Lemma r_fill_inv pre r c xs r' n : rinv pre r c -> fill ops r xs = Ret (r', n) ->
    rinv pre r' (c ++ firstn n xs) /\ to_append r' = to_append r /\ vcap (rbuf r') = vcap (rbuf r).
  Proof.
    intros I. unfold fill, spare_capacity. rewrite (r_len _ _ _ I). cbn [bind]. rewrite (r_cap _ _ _ I). cbn [bind].
    unfold usub. destruct (Nat.leb_spec (length c) (vcap (rbuf r) - length (pre ++ c))) as [L|L]; [|discriminate].
    cbn [bind]. set (ys := firstn _ xs).
    destruct I as ((rest & C & LN) & O).
    assert (LY : length ys <= vcap (rbuf r) - length (pre ++ c) - length c) by (unfold ys; rewrite firstn_length; lia).
    assert (LC : length (pre ++ c) <= vcap (rbuf r)) by (unfold vcap; rewrite C, (app_length (map Some (pre ++ c))), map_length; lia).
    destruct (r_write_range pre ys r c O (ex_intro _ rest C)) as (r1 & E1 & T1 & O1 & C1 & rest1 & E2); [lia|].
    rewrite E1. cbn [bind].
    destruct (r_set_len pre (c ++ ys) r1 rest1 E2) as (r2 & E3 & I2 & T2 & C2); [congruence|].
    rewrite app_length in E3. rewrite E3. cbn [bind]. intros H. injection H as <- <-.
    assert (F : firstn (length ys) xs = ys).
    { unfold ys. rewrite firstn_length.
      destruct (Nat.le_ge_cases (vcap (rbuf r) - length (pre ++ c) - length c) (length xs)).
      - now rewrite Nat.min_l by auto.
      - rewrite Nat.min_r by auto. rewrite firstn_all. symmetry. now apply firstn_all2. }
    rewrite F. repeat split; try congruence; apply I2.
  Qed.

  Lemma r_shrink_inv pre r c n r' : rinv pre r c -> shrink_to ops r n = Ret r' ->
    rinv pre r' (firstn n c) /\ to_append r' = to_append r /\ vcap (rbuf r') = vcap (rbuf r).
  Proof.
    intros I. unfold shrink_to. rewrite (r_len _ _ _ I). cbn [bind].
    destruct (Nat.leb_spec n (length c)) as [L|L]; [|discriminate].
    destruct (Nat.eqb_spec n (length c)) as [->|N].
    - intros H. injection H as <-. rewrite firstn_all. auto.
    - rewrite (r_read _ _ _ I) by lia. cbn [bind]. destruct I as ((rest & C & LN) & O).
      destruct (r_set_len pre (firstn n c) r (map Some (skipn n c) ++ rest)) as (r2 & E3 & I2 & T2 & C2); auto.
      { rewrite C, app_assoc, <- map_app, <- app_assoc, firstn_skipn. reflexivity. }
      rewrite firstn_length, Nat.min_l in E3 by auto. rewrite E3. intros H. injection H as <-. auto.
  Qed.

  Lemma accepted_snoc tr (e : wevent T) : accepted (tr ++ [e]) = accept (accepted tr) e.
  Proof. unfold accepted. now rewrite fold_left_app. Qed.

  (** A run of a writer that returns. *)
  Lemma run_writer_inv {G} (p : wprog T E G) : forall pre w tr c res g tr' en,
    rinv pre w c -> accepted tr = c -> run_writer ops p w tr = Ret (res, g, tr', en) ->
    exists w' c', rinv pre w' c' /\ accepted tr' = c' /\ to_append w' = to_append w /\ vcap (rbuf w') = vcap (rbuf w)
      /\ (en = EndAdvance /\ bw_advance ops w' = Ret res
          \/ en = EndCancel /\ exists e, bw_cancel ops w' e = Ret res).
  Proof.
    induction p as [x k IH|xs k IH|n k IH|k IH|k IH|k IH|f k IH|g0|e g0]; intros pre w tr c res g tr' en I A R;
      cbn [run_writer] in R.
    - apply bind_ret in R as ([w1 ok] & P & R). destruct (r_push_inv _ _ _ _ _ _ I P) as (I1 & T1 & C1).
      eapply (IH ok pre w1) in R as (w' & c' & A1 & A2 & A3 & A4 & A5); [|exact I1|rewrite accepted_snoc, A; destruct ok; reflexivity].
      exists w', c'. repeat split; try congruence; auto; apply A1.
    - apply bind_ret in R as ([w1 m] & P & R). destruct (r_fill_inv _ _ _ _ _ _ I P) as (I1 & T1 & C1).
      eapply (IH m pre w1) in R as (w' & c' & A1 & A2 & A3 & A4 & A5); [|exact I1|rewrite accepted_snoc, A; reflexivity].
      exists w', c'. repeat split; try congruence; auto; apply A1.
    - apply bind_ret in R as (w1 & P & R). destruct (r_shrink_inv _ _ _ _ _ I P) as (I1 & T1 & C1).
      eapply (IH pre w1) in R as (w' & c' & A1 & A2 & A3 & A4 & A5); [|exact I1|rewrite accepted_snoc, A; reflexivity].
      exists w', c'. repeat split; try congruence; auto; apply A1.
    - apply bind_ret in R as (m & _ & R). eapply IH; eauto.
    - apply bind_ret in R as (m & _ & R). eapply IH; eauto.
    - apply bind_ret in R as (m & _ & R). eapply IH; eauto.
    - apply bind_ret in R as ([w1 ys] & P & R). destruct (r_edit _ _ _ f I) as (w0 & P0 & I1 & T1 & C1).
      rewrite P0 in P. injection P as <- <-.
      eapply (IH pre w0) in R as (w' & c' & A1 & A2 & A3 & A4 & A5); [|exact I1|rewrite accepted_snoc, A; reflexivity].
      exists w', c'. repeat split; try congruence; auto; apply A1.
    - apply bind_ret in R as (m & P & R). injection R as <- <- <- <-.
      exists w, c. repeat split; auto; apply I.
    - apply bind_ret in R as (m & P & R). injection R as <- <- <- <-.
      exists w, c. repeat split; eauto; apply I.
  Qed.

  (** The request. *)
  Lemma request_ok grow v xs n : holds v xs ->
    exists r, request_writer grow v n = Ret r /\
      (n <= vcap v - length xs /\ rinv xs r [] /\ to_append r = vec_new /\ rbuf r = v
       \/ vcap v - length xs < n /\ rinv [] r [] /\ to_append r = v /\ vcap (rbuf r) = grow n).
  Proof.
    intros H. pose proof (holds_cap _ _ H) as HC. unfold request_writer, usub. rewrite (holds_len _ _ H).
    rewrite (proj2 (Nat.leb_le _ _)) by auto. cbn [bind].
    destruct (Nat.leb_spec n (vcap v - length xs)).
    - eexists. split; [reflexivity|]. left. cbn [to_append rbuf]. split; [auto|]. split; [|auto].
      split; [rewrite app_nil_r; exact H|reflexivity].
    - eexists. split; [reflexivity|]. right. cbn [to_append rbuf]. split; [auto|]. rewrite vcap_with_capacity.
      split; [|auto]. split; [apply holds_with_capacity|reflexivity].
  Qed.
End Writer.

(** ** Loads *)
Section Load.
  Context {T E G : Type} (src : source T E G).

  (** [ss]: the segments in the chain; [xs]: the loader's buffer. *)
  Definition linv (l : loader T G) (ss : list (list T)) (xs : list T) : Prop :=
    committed l ss /\ holds (ld_buf l) xs.

  Lemma linv_new g : linv (loader_new g) [] [].
  Proof. split; [constructor; reflexivity|apply holds_new]. Qed.

  Lemma force_ok l ss xs : linv l ss xs ->
    exists l', force_commit l = Ret l' /\ linv l' (ss ++ [xs]) [] /\ ld_source l' = ld_source l.
  Proof.
    intros (C & H). unfold force_commit. rewrite (holds_items _ _ H).
    destruct (commit_ok _ _ _ _ xs C) as (h' & t' & E1 & C'). rewrite E1. cbn.
    eexists. split; [reflexivity|]. split; [split; [exact C'|apply holds_new]|reflexivity].
  Qed.

  (** One load that returns. *)
  Lemma load_inv grow l ss xs i l' tr en : linv l ss xs -> load src grow l = Ret (i, l', (tr, en)) ->
    exists ss' xs', linv l' ss' xs' /\
      match en with
      | EndAdvance => concat ss' ++ xs' = concat ss ++ xs ++ accepted tr
          /\ exists new, ss' = ss ++ new /\ i = ROk (load_info_new (length (concat new)) (length xs') (vcap (ld_buf l')))
      | EndFinish => tr = [] /\ xs' = [] /\ ld_buf l' = vec_new /\ ss' = ss ++ [xs] /\ i = ROk (load_info_done (length xs))
      | EndCancel => ss' = ss /\ (exists e, i = RErr e)
          /\ exists n p, src (ld_source l) = SRequest n p /\ xs' = if n <=? vcap (ld_buf l) - length xs then xs else []
      | EndReject => ss' = ss /\ xs' = xs /\ (exists e, i = RErr e) /\ ld_buf l' = ld_buf l
      end.
  Proof.
    intros (C & H) R. unfold load in R.
    apply bind_ret in R as ([[[[res buf] g] tr0] en0] & R1 & R2). cbn in R2.
    unfold run_source in R1. destruct (src (ld_source l)) as [n p|g0|e g0] eqn:S.
    - apply bind_ret in R1 as (w & RQ & RW). cbn in RQ.
      destruct (request_ok (T := T) grow _ _ n H) as (r & RQ' & CASE). rewrite RQ in RQ'. injection RQ' as <-.
      assert (X : exists pre, rinv pre w [] /\
          (n <= vcap (ld_buf l) - length xs /\ pre = xs /\ to_append w = vec_new
           \/ vcap (ld_buf l) - length xs < n /\ pre = [] /\ to_append w = ld_buf l)).
      { destruct CASE as [(L & I & TA & RB)|(L & I & TA & VC)].
        - exists xs. split; [auto|left; auto].
        - exists []. split; [auto|right; auto]. }
      destruct X as (pre & I & CASE'). clear CASE.
      assert (A0 : accepted (T := T) [] = []) by reflexivity.
      destruct (run_writer_inv p _ _ _ _ _ _ _ _ I A0 RW) as (w' & c' & I' & A & TA & VC & EN).
      destruct EN as [(-> & AD)|(-> & e & CA)].
      + cbn in AD. destruct CASE' as [(L & -> & TV)|(L & -> & TV)]; rewrite TA, TV in AD.
        * cbn in AD. injection AD as <- <-. injection R2 as <- <- <- <-.
          exists ss, (xs ++ c'). destruct I' as (HB & OF). split; [split; [exact C|exact HB]|].
          split; [now rewrite A|]. exists []. cbn. rewrite app_nil_r, (holds_len _ _ HB). auto.
        * rewrite (holds_len _ _ H) in AD. destruct I' as (HB & OF). cbn in HB.
          destruct (Nat.eqb_spec (length xs) 0) as [Z|Z].
          -- injection AD as <- <-. injection R2 as <- <- <- <-.
             exists ss, c'. split; [split; [exact C|exact HB]|].
             assert (xs = []) by (destruct xs; [auto|discriminate]). subst xs.
             split; [now rewrite A|]. exists []. cbn. rewrite app_nil_r, (holds_len _ _ HB). auto.
          -- injection AD as <- <-. rewrite (holds_items _ _ H) in R2.
             destruct (commit_ok _ _ _ _ xs C) as (h' & t' & E1 & C'). rewrite E1 in R2. cbn in R2.
             injection R2 as <- <- <- <-.
             exists (ss ++ [xs]), c'. split; [split; [exact C'|exact HB]|].
             split; [rewrite concat_app; cbn; now rewrite app_nil_r, <- app_assoc, A|].
             exists [xs]. cbn. rewrite app_nil_r, (holds_len _ _ HB), (holds_len _ _ H). auto.
      + cbn in CA. apply bind_ret in CA as (v & DR & CA). injection CA as <- <-. injection R2 as <- <- <- <-.
        destruct I' as (HB & OF).
        destruct (drain_ok _ _ (roffset w') HB) as (v' & DR' & HV & _); [rewrite OF, app_length; lia|].
        rewrite DR in DR'. injection DR' as <-. rewrite OF, firstn_length_app in HV.
        exists ss, pre. split; [split; [exact C|exact HV]|]. split; [auto|]. split; [eauto|].
        exists n, p. split; [auto|].
        destruct CASE' as [(L & -> & _)|(L & -> & _)].
        * now rewrite (proj2 (Nat.leb_le _ _)).
        * now rewrite (proj2 (Nat.leb_gt _ _)).
    - cbn in R1. injection R1 as <- <- <- <- <-. cbn in R2. rewrite (holds_items _ _ H), (holds_len _ _ H) in R2.
      destruct (commit_ok _ _ _ _ xs C) as (h' & t' & E1 & C'). rewrite E1 in R2. cbn in R2.
      injection R2 as <- <- <- <-. exists (ss ++ [xs]), [].
      split; [split; [exact C'|apply holds_new]|auto].
    - cbn in R1. injection R1 as <- <- <- <- <-. injection R2 as <- <- <- <-.
      exists ss, xs. split; [split; auto|]. eauto 10.
  Qed.

  (** The only way not to return is the source's use of the writer. *)
  Lemma load_total grow l ss xs : linv l ss xs ->
    (exists r, run_source (gcontrol T E grow) (ld_buf l) (src (ld_source l)) = Ret r) ->
    exists r, load src grow l = Ret r.
  Proof.
    intros (C & H) ([[[[res buf] g] tr0] en0] & R). unfold load. rewrite R. cbn.
    destruct res as [len cap|b len cap|b|e]; cbn; eauto.
    - destruct (commit_ok _ _ _ _ (items b) C) as (h' & t' & E1 & _). rewrite E1. cbn. eauto.
    - destruct (commit_ok _ _ _ _ (items b) C) as (h' & t' & E1 & _). rewrite E1. cbn. eauto.
  Qed.

  Lemma load_all_inv cs : forall l ss xs rs l', linv l ss xs -> load_all src cs l = Ret (rs, l') ->
    exists ss' xs', linv l' ss' xs'
      /\ (Forall not_cancelled rs -> concat ss' ++ xs' = concat ss ++ xs ++ concat (map (fun r => accepted (fst (snd r))) rs)).
  Proof.
    induction cs as [|[grow|] cs IH]; intros l ss xs rs l' I R; cbn in R.
    - injection R as <- <-. exists ss, xs. split; auto. intros _. cbn. now rewrite app_nil_r.
    - apply bind_ret in R as ([[i l1] [tr en]] & R1 & R). cbn in R. apply bind_ret in R as ([rs2 l2] & R2 & R).
      injection R as <- <-.
      destruct (load_inv _ _ _ _ _ _ _ _ I R1) as (ss1 & xs1 & I1 & P).
      destruct (IH _ _ _ _ _ I1 R2) as (ss2 & xs2 & I2 & Q).
      exists ss2, xs2. split; [auto|]. intros F. inversion F as [|? ? NC F']; subst.
      rewrite (Q F'). cbn. unfold not_cancelled in NC. cbn in NC.
      destruct NC as [-> | ->].
      + destruct P as (P & _). rewrite app_assoc, P. now rewrite !app_assoc.
      + destruct P as (-> & -> & _ & -> & _). cbn. rewrite concat_app. cbn. rewrite app_nil_r. now rewrite !app_assoc.
    - apply bind_ret in R as (l1 & R1 & R). destruct (force_ok _ _ _ I) as (l0 & E0 & I0 & _).
      rewrite E0 in R1. injection R1 as <-.
      destruct (IH _ _ _ _ _ I0 R) as (ss2 & xs2 & I2 & Q). exists ss2, xs2. split; [auto|].
      intros F. rewrite (Q F). rewrite concat_app. cbn. rewrite app_nil_r. now rewrite !app_assoc.
  Qed.
End Load.

(** ** push_item many times *)
Section Push.
  Context {T E : Type}.
  Notation ops := (request_writer_ops T E).

  (** [k] items written into [spare] cells so far. *)
  Lemma push_many_odd xs : forall (w : request T) pre c, rinv pre w c ->
    Nat.even (vcap (rbuf w) - length pre) = false ->
    length (pre ++ c) + length xs <= vcap (rbuf w) ->
    exists w', push_many ops w xs = Ret (w', map (fun _ => true) xs) /\ rinv pre w' (c ++ xs).
  Proof.
    induction xs as [|x xs IH]; intros w pre c I OD L; cbn in *.
    - exists w. rewrite app_nil_r. auto.
    - rewrite app_length in L.
      destruct (r_push_ok (E := E) pre w c x I) as (w1 & E1 & I1 & T1 & C1).
      + rewrite app_length. intros Q.
        assert (Z : vcap (rbuf w) - length pre = 2 * length c) by lia.
        rewrite Z, Nat.even_mul in OD. discriminate.
      + rewrite app_length. lia.
      + rewrite E1. cbn. destruct (IH w1 pre (c ++ [x]) I1) as (w2 & E2 & I2).
        * now rewrite C1.
        * rewrite C1, !app_length. cbn. lia.
        * rewrite E2. cbn. exists w2. rewrite <- app_assoc in I2. auto.
  Qed.

  Lemma push_many_even xs : forall (w : request T) pre c, rinv pre w c ->
    Nat.even (vcap (rbuf w) - length pre) = true -> length pre <= vcap (rbuf w) ->
    let room := (vcap (rbuf w) - length pre) / 2 - length c in
    length c <= (vcap (rbuf w) - length pre) / 2 ->
    exists w', push_many ops w xs = Ret (w', repeat true (min room (length xs)) ++ repeat false (length xs - room))
      /\ rinv pre w' (c ++ firstn room xs).
  Proof.
    induction xs as [|x xs IH]; intros w pre c I EV LP room LC; cbn.
    - rewrite Nat.min_0_r, firstn_nil, (app_nil_r c). exists w. split; [reflexivity|exact I].
    - assert (HALF : vcap (rbuf w) - length pre = 2 * ((vcap (rbuf w) - length pre) / 2)).
      { apply Nat.even_spec in EV as (q & Q). rewrite Q. f_equal.
        rewrite Nat.mul_comm, Nat.div_mul; lia. }
      destruct room as [|room'] eqn:RM.
      + rewrite (r_push_err (E := E) pre w c x I) by (rewrite app_length; lia). cbn.
        destruct (IH w pre c I EV LP LC) as (w' & E1 & I1).
        replace ((vcap (rbuf w) - length pre) / 2 - length c) with 0 in E1, I1 by lia.
        cbn in E1, I1. rewrite Nat.sub_0_r in E1. rewrite E1. cbn. exists w'. auto.
      + destruct (r_push_ok (E := E) pre w c x I) as (w1 & E1 & I1 & T1 & C1).
        * rewrite app_length. lia.
        * rewrite app_length. lia.
        * rewrite E1. cbn.
          destruct (IH w1 pre (c ++ [x]) I1) as (w2 & E2 & I2); rewrite ?C1; auto.
          { rewrite app_length. cbn. lia. }
          rewrite C1, app_length in E2, I2. cbn [length] in E2, I2.
          replace ((vcap (rbuf w) - length pre) / 2 - (length c + 1)) with room' in E2, I2 by lia.
          rewrite E2. cbn. exists w2. split; [reflexivity|]. rewrite <- app_assoc in I2. exact I2.
  Qed.

  Lemma push_many_app (xs ys : list T) : forall w,
    push_many ops w (xs ++ ys) =
      (' (w1, a) <- push_many ops w xs ;; ' (w2, b) <- push_many ops w1 ys ;; Ret (w2, a ++ b)).
  Proof.
    induction xs as [|x xs IH]; intros w; cbn -[push_item].
    - destruct (push_many ops w ys) as [[w2 b]| | |]; reflexivity.
    - destruct (push_item ops w x) as [[w1 ok]| | |]; cbn -[push_item]; auto.
      rewrite IH. destruct (push_many ops w1 xs) as [[w2 a]| | |]; cbn -[push_item]; auto.
      destruct (push_many ops w2 ys) as [[w3 b]| | |]; reflexivity.
  Qed.

  Lemma push_many_overflow xs : forall (w : request T) pre, rinv pre w [] ->
    Nat.even (vcap (rbuf w) - length pre) = false ->
    vcap (rbuf w) - length pre < length xs ->
    push_many ops w xs = UB.
  Proof.
    intros w pre I OD L. set (s := vcap (rbuf w) - length pre) in *.
    rewrite <- (firstn_skipn s xs), push_many_app.
    assert (LF : length (firstn s xs) = s) by (rewrite firstn_length; lia).
    assert (LP : length pre <= vcap (rbuf w)).
    { destruct I as (H & _). apply holds_cap in H. now rewrite app_nil_r in H. }
    destruct (push_many_odd (firstn s xs) w pre [] I OD) as (w' & E1 & I1).
    { rewrite app_nil_r, LF. lia. }
    rewrite E1. cbn [bind]. cbn in I1.
    destruct (skipn s xs) as [|y ys] eqn:SK.
    { assert (length (skipn s xs) = 0) by (rewrite SK; auto). rewrite skipn_length in H. lia. }
    assert (VC : vcap (rbuf w') = vcap (rbuf w)).
    { assert (G : forall l (w w' : request T) pre c oks, rinv pre w c -> push_many ops w l = Ret (w', oks) -> vcap (rbuf w') = vcap (rbuf w)).
      { clear. induction l as [|x l IH]; intros w w' pre c oks I R; cbn in R; [injection R as <- <-; auto|].
        apply bind_ret in R as ([w1 ok] & R1 & R). apply bind_ret in R as ([w2 o2] & R2 & R). injection R as <- <-.
        destruct (r_push_inv _ _ _ _ _ _ I R1) as (I1 & _ & C1). rewrite <- C1. eapply IH; eauto. }
      eapply G; eauto. }
    assert (SN : s <> 0) by (intros Z; rewrite Z in OD; discriminate).
    cbn -[push_item]. rewrite (r_push_ub (E := E) _ _ _ y I1); auto.
    - rewrite app_length, LF, VC. fold s. lia.
    - rewrite VC, app_length, LF. unfold s. lia.
  Qed.
End Push.

(** ** IteratorSource *)
Section IterSource.
  Context {T : Type}.
  Notation ops := (request_writer_ops T Never).

  Lemma run_push_all seg : forall (w : request T) tr (rest : list (list T)),
    run_writer ops (push_all seg (WAdvance rest)) w tr =
      (' (w', oks) <- push_many ops w seg ;;
       r <- bw_advance ops w' ;;
       Ret (r, rest, tr ++ map (fun p : bool * T => if fst p then PushOk (snd p) else PushErr (snd p)) (combine oks seg), EndAdvance)).
  Proof.
    induction seg as [|x seg IH]; intros w tr rest; cbn -[push_item bw_advance].
    - destruct (bw_advance ops w); cbn; auto. now rewrite app_nil_r.
    - destruct (push_item ops w x) as [[w1 ok]| | |]; cbn -[push_item bw_advance]; auto.
      rewrite IH. destruct (push_many ops w1 seg) as [[w2 oks]| | |]; cbn -[push_item bw_advance]; auto.
      destruct (bw_advance ops w2); cbn; auto. rewrite <- app_assoc. reflexivity.
  Qed.

  Lemma push_kept (w : request T) pre seg : rinv pre w [] ->
    length seg <= vcap (rbuf w) - length pre ->
    exists w' oks, push_many ops w seg = Ret (w', oks) /\ rinv pre w' (kept (vcap (rbuf w) - length pre) seg).
  Proof.
    intros I L. assert (LP : length pre <= vcap (rbuf w)).
    { destruct I as (H & _). apply holds_cap in H. now rewrite app_nil_r in H. }
    unfold kept. destruct (Nat.even (vcap (rbuf w) - length pre)) eqn:EV.
    - destruct (push_many_even (E := Never) seg w pre [] I EV LP) as (w' & E1 & I1); [cbn; lia|].
      cbn [length] in *. rewrite Nat.sub_0_r in I1. eauto.
    - destruct (push_many_odd (E := Never) seg w pre [] I EV) as (w' & E1 & I1); [rewrite app_nil_r; lia|]. eauto.
  Qed.

  Lemma vcap_push l : forall (w w' : request T) pre c oks,
    rinv pre w c -> push_many ops w l = Ret (w', oks) -> vcap (rbuf w') = vcap (rbuf w) /\ to_append w' = to_append w.
  Proof.
    induction l as [|x l IH]; intros w w' pre c oks I R; cbn in R; [injection R as <- <-; auto|].
    apply bind_ret in R as ([w1 ok] & R1 & R). apply bind_ret in R as ([w2 o2] & R2 & R). injection R as <- <-.
    destruct (r_push_inv _ _ _ _ _ _ I R1) as (I1 & T1 & C1).
    destruct (IH _ _ _ _ _ I1 R2). split; congruence.
  Qed.

  (** One load of a chunk. *)
  Lemma load_chunk grow (l : loader T (list (list T))) ss xs seg rest :
    linv l ss xs -> ld_source l = seg :: rest -> (forall n, n <= grow n) ->
    let len0 := if length seg <=? vcap (ld_buf l) - length xs then length xs else 0 in
    let cap0 := if length seg <=? vcap (ld_buf l) - length xs then vcap (ld_buf l) else grow (length seg) in
    exists i l' tr ss' xs', load iterator_source grow l = Ret (i, l', (tr, EndAdvance))
      /\ linv l' ss' xs' /\ ld_source l' = rest
      /\ concat ss' ++ xs' = concat ss ++ xs ++ kept (cap0 - len0) seg
      /\ length xs' = len0 + length (kept (cap0 - len0) seg) /\ vcap (ld_buf l') = cap0
      /\ (exists info, i = ROk info /\ is_done info = false).
  Proof.
    intros (C & H) S GR len0 cap0.
    destruct (request_ok (T := T) grow _ _ (length seg) H) as (w & RQ & CASE).
    assert (X : exists pre, rinv pre w [] /\ length pre = len0 /\ vcap (rbuf w) = cap0
        /\ length seg <= cap0 - len0
        /\ (pre = xs /\ to_append w = vec_new \/ pre = [] /\ to_append w = ld_buf l)).
    { unfold len0, cap0. destruct CASE as [(L & I & TA & RB)|(L & I & TA & VC)].
      - rewrite (proj2 (Nat.leb_le _ _)) by auto. exists xs. rewrite RB. repeat split; auto; apply I.
      - rewrite (proj2 (Nat.leb_gt _ _)) by auto. exists []. rewrite Nat.sub_0_r. repeat split; auto; apply I. }
    destruct X as (pre & I & LP & VC & FIT & CASE'). clear CASE.
    assert (FIT' : length seg <= vcap (rbuf w) - length pre) by (rewrite VC, LP; exact FIT).
    destruct (push_kept w pre seg I FIT') as (w' & oks & P & I').
    destruct (vcap_push _ _ _ _ _ _ I P) as (VC' & TA').
    rewrite VC, LP in I'.
    set (K := kept (cap0 - len0) seg) in *.
    assert (RUN : exists tr, run_source (gcontrol T Never grow) (ld_buf l) (iterator_source (ld_source l)) =
               (r <- bw_advance ops w' ;; Ret (r, rest, tr, EndAdvance))).
    { rewrite S. cbn [iterator_source run_source ct_request gcontrol]. rewrite RQ. cbn [bind ct_writer].
      rewrite run_push_all, P. cbn [bind app]. eauto. }
    destruct RUN as (tr & RUN).
    unfold load. rewrite RUN. cbn [bw_advance request_writer_ops].
    destruct I' as (HB & OF). rewrite TA'.
    destruct CASE' as [(-> & TV)|(-> & TV)]; rewrite TV.
    - cbn. eexists _, _, _, ss, (xs ++ K). split; [reflexivity|].
      split; [split; [exact C|exact HB]|]. cbn. split; [auto|]. split; [auto|].
      split; [rewrite app_length; lia|]. split; [congruence|]. eauto.
    - rewrite (holds_len _ _ H). cbn in HB, LP. destruct (Nat.eqb_spec (length xs) 0) as [Z|Z].
      + assert (xs = []) by (destruct xs; [auto|discriminate]). subst xs.
        cbn. eexists _, _, _, ss, K. split; [reflexivity|].
        split; [split; [exact C|exact HB]|]. cbn. split; [auto|]. split; [auto|].
        split; [lia|]. split; [congruence|]. eauto.
      + cbn. rewrite (holds_items _ _ H). destruct (commit_ok _ _ _ _ xs C) as (h' & t' & E1 & C'). rewrite E1. cbn.
        eexists _, _, _, (ss ++ [xs]), K. split; [reflexivity|].
        split; [split; [exact C'|exact HB]|]. cbn. split; [auto|].
        split; [rewrite concat_app; cbn; now rewrite app_nil_r, <- app_assoc|].
        split; [lia|]. split; [congruence|]. eauto.
  Qed.

  Lemma load_chunks grow : (forall n, n <= grow n) -> forall chunks (l : loader T (list (list T))) ss xs,
    linv l ss xs -> ld_source l = chunks ->
    exists rs l' ss', load_all iterator_source (repeat (LLoad grow) (length chunks + 1)) l = Ret (rs, l')
      /\ linv l' ss' []
      /\ concat ss' = concat ss ++ xs ++ keeps grow (length xs) (vcap (ld_buf l)) chunks
      /\ exists info rs0, rs = rs0 ++ [(ROk info, ([], EndFinish))] /\ is_done info = true.
  Proof.
    intros GR. induction chunks as [|seg chunks IH]; intros l ss xs I S.
    - cbn [length Nat.add repeat load_all]. destruct I as (C & H). unfold load. rewrite S.
      cbn [iterator_source run_source gcontrol ct_finish bind]. rewrite (holds_items _ _ H).
      destruct (commit_ok _ _ _ _ xs C) as (h' & t' & E1 & C'). rewrite E1. cbn [bind].
      eexists _, _, (ss ++ [xs]). split; [reflexivity|]. split; [split; [exact C'|apply holds_new]|].
      split; [rewrite concat_app; cbn; now rewrite !app_nil_r|].
      eexists _, []. cbn. split; reflexivity.
    - cbn [length Nat.add repeat load_all].
      destruct (load_chunk grow l ss xs seg chunks I S GR) as (i & l1 & tr & ss1 & xs1 & E1 & I1 & S1 & CC & LX & VC & _).
      rewrite E1. cbn [bind].
      destruct (IH l1 ss1 xs1 I1 S1) as (rs & l2 & ss2 & E2 & I2 & CC2 & info & r0 & LA & DN).
      rewrite E2. cbn [bind]. eexists _, _, ss2. split; [reflexivity|]. split; [auto|]. split.
      + rewrite CC2, app_assoc, CC, LX, VC. cbn [keeps].
        destruct (length seg <=? vcap (ld_buf l) - length xs); rewrite <- !app_assoc; reflexivity.
      + exists info. eexists (_ :: r0). split; [|auto]. rewrite LA. reflexivity.
  Qed.
End IterSource.
