(** * L_Seq: proofs about slices, strings and measured sequences. *)
From Verif Require Export L_Base M_Seq S_Seq.

Set Implicit Arguments.

(** ** Slices *)
Section Slice.
  Context {T : Type}.

  Lemma slice_advance_iff (s s' : slice T) n :
    slice_advance s n = Ret s' <->
    exists dropped, length dropped = n /\ sl_data s = dropped ++ sl_data s' /\
               sl_alloc s' = sl_alloc s /\ sl_off s' = sl_off s + n.
  Proof.
    unfold slice_advance. destruct s as [al off d]; cbn. split.
    - destruct (Nat.leb_spec n (length d)) as [Hle|]; [|discriminate].
      injection 1 as <-. exists (firstn n d). cbn. rewrite firstn_length.
      repeat split; try lia. symmetry; apply firstn_skipn.
    - intros [dr [Hl [Hd [Ha Ho]]]]. subst n. rewrite Hd, app_length.
      destruct (Nat.leb_spec (length dr) (length dr + length (sl_data s'))) as [Hle|]; [|lia].
      rewrite skipn_length_app. destruct s' as [al' off' d']; cbn in *. now subst.
  Qed.

  Lemma slice_advance_past (s : slice T) n :
    length (sl_data s) < n -> slice_advance s n = Panic.
  Proof. intros Hn. unfold slice_advance. destruct (Nat.leb_spec n (length (sl_data s))); [lia|auto]. Qed.

  Lemma slice_advance_add (s : slice T) n m :
    (s' <- slice_advance s n ;; slice_advance s' m) = slice_advance s (n + m).
  Proof.
    destruct s as [al off d]. unfold slice_advance; cbn.
    destruct (Nat.leb_spec n (length d)) as [Hn|Hn]; cbn.
    - rewrite skipn_length.
      destruct (Nat.leb_spec m (length d - n)), (Nat.leb_spec (n + m) (length d)); try lia; auto.
      rewrite skipn_add. do 2 f_equal; lia.
    - destruct (Nat.leb_spec (n + m) (length d)); [lia|auto].
  Qed.

  Lemma later_slice_refl (s : slice T) : later_slice s s.
  Proof. exists []. split; auto. destruct s; cbn. now rewrite Nat.add_0_r. Qed.

  Lemma later_slice_trans (s1 s2 s3 : slice T) : later_slice s1 s2 -> later_slice s2 s3 -> later_slice s1 s3.
  Proof.
    intros [d1 [H1 E1]] [d2 [H2 E2]]. exists (d1 ++ d2). split.
    - rewrite H1, H2. now rewrite app_assoc.
    - rewrite E2, E1. cbn. rewrite app_length, Nat.add_assoc. reflexivity.
  Qed.

  Lemma slice_rewind_later (s s' : slice T) : later_slice s s' -> slice_rewind false s' s = Ret s.
  Proof.
    intros [d [H1 E1]]. unfold slice_rewind. rewrite E1; cbn. rewrite Nat.eqb_refl; cbn.
    rewrite H1, app_length.
    destruct (Z.ltb_spec (Z.of_nat (sl_off s + length d) - Z.of_nat (sl_off s)) 0); [lia|].
    destruct (Z.leb_spec (Z.of_nat (sl_off s + length d) - Z.of_nat (sl_off s)) (Z.of_nat (length d + length (sl_data s')))); [|lia].
    reflexivity.
  Qed.

  Lemma slice_rewind_earlier (s s' : slice T) :
    later_slice s s' -> sl_data s' <> sl_data s -> slice_rewind false s s' = Panic.
  Proof.
    intros [d [H1 E1]] Hne. unfold slice_rewind. rewrite E1; cbn. rewrite Nat.eqb_refl; cbn.
    assert (0 < length d) as Hd. { destruct d; cbn; [|lia]. cbn in H1. congruence. }
    destruct (Z.ltb_spec (Z.of_nat (sl_off s) - Z.of_nat (sl_off s + length d)) 0); [auto|lia].
  Qed.

  Lemma slice_lawful : lawful_rewind (@later_slice T).
  Proof.
    constructor; [apply later_slice_refl|apply later_slice_trans|].
    intros s s' H. now apply slice_rewind_later.
  Qed.

  Lemma slice_advance_later (s s' : slice T) n : slice_advance s n = Ret s' -> later_slice s s'.
  Proof.
    intros H. apply slice_advance_iff in H. destruct H as [d [Hl [Hd [Ha Ho]]]].
    exists d. split; auto. destruct s'; cbn in *. now subst.
  Qed.

  Lemma slice_advances_iff ns (s s' : slice T) :
    advances ns s = Ret s' <-> slice_advance s (list_sum ns) = Ret s'.
  Proof.
    assert (advances ns s = slice_advance s (list_sum ns)) as ->; [|reflexivity].
    revert s. induction ns as [|n ns IH]; intros s; cbn [advances list_sum fold_right].
    - destruct s as [al off d]. unfold slice_advance; cbn. now rewrite Nat.add_0_r.
    - change (fold_right Init.Nat.add 0 ns) with (list_sum ns).
      rewrite <- slice_advance_add. cbn [advance slice_sequence].
      destruct (slice_advance s n) as [s1| | |]; cbn [bind]; auto.
  Qed.

  Lemma slice_rewind_history ns (s s' : slice T) :
    advances ns s = Ret s' -> rewind s' (anchor s) = Ret s.
  Proof.
    intros H. apply slice_advances_iff in H. apply slice_rewind_later. eapply slice_advance_later; eauto.
  Qed.

  Lemma slice_lawful_items : lawful_items (S := slice T) (T := T).
  Proof.
    intros s a b Hc. unfold content in Hc; cbn in Hc. rewrite app_nil_r in Hc.
    exists (Slice (sl_alloc s) (sl_off s + length a) b). split.
    - cbn. apply slice_advance_iff. exists a. auto.
    - unfold content; cbn. now rewrite app_nil_r.
  Qed.
End Slice.

(** ** Strings *)
Lemma len_utf8_pos c : 1 <= len_utf8 c.
Proof. unfold len_utf8. repeat destruct (N.ltb _ _); lia. Qed.

Lemma chars_len_app a b : chars_len (a ++ b) = chars_len a + chars_len b.
Proof. unfold chars_len. now rewrite map_app, list_sum_app. Qed.
Lemma chars_len_cons c a : chars_len (c :: a) = len_utf8 c + chars_len a.
Proof. reflexivity. Qed.
Lemma chars_len_zero a : chars_len a = 0 -> a = [].
Proof. destruct a as [|c a]; auto. rewrite chars_len_cons. pose proof (len_utf8_pos c). lia. Qed.

Lemma split_chars_sound cs n a b : split_chars cs n = Some (a, b) -> cs = a ++ b /\ chars_len a = n.
Proof.
  revert n a b. induction cs as [|c cs IH]; intros n a b; cbn.
  - destruct (Nat.eqb_spec n 0); [|discriminate]. injection 1 as <- <-. subst; auto.
  - destruct (Nat.eqb_spec n 0). { injection 1 as <- <-. subst; auto. }
    destruct (Nat.leb_spec (len_utf8 c) n); [|discriminate].
    destruct (split_chars cs (n - len_utf8 c)) as [[a' b']|] eqn:E; [|discriminate].
    injection 1 as <- <-. apply IH in E. destruct E as [-> E].
    split; auto. rewrite chars_len_cons. lia.
Qed.

Lemma split_chars_complete a b : split_chars (a ++ b) (chars_len a) = Some (a, b).
Proof.
  induction a as [|c a IH].
  - cbn. destruct b; reflexivity.
  - cbn [app split_chars]. rewrite chars_len_cons. pose proof (len_utf8_pos c).
    destruct (Nat.eqb_spec (len_utf8 c + chars_len a) 0); [lia|].
    destruct (Nat.leb_spec (len_utf8 c) (len_utf8 c + chars_len a)); [|lia].
    replace (len_utf8 c + chars_len a - len_utf8 c) with (chars_len a) by lia.
    now rewrite IH.
Qed.

Lemma split_chars_none cs n : split_chars cs n = None <-> ~ boundary cs n.
Proof.
  split.
  - intros H [a [b [-> <-]]]. rewrite split_chars_complete in H. discriminate.
  - intros Hn. destruct (split_chars cs n) as [[a b]|] eqn:E; auto.
    apply split_chars_sound in E. exfalso. apply Hn. exists a, b. tauto.
Qed.

Lemma boundary_dec cs n : {ab | split_chars cs n = Some ab} + {split_chars cs n = None}.
Proof. destruct (split_chars cs n) as [ab|]; [left; eauto|right; auto]. Qed.

Lemma chars_len_inj a b c d : a ++ b = c ++ d -> chars_len a = chars_len c -> a = c /\ b = d.
Proof.
  intros H Hl. pose proof (split_chars_complete a b) as H1. pose proof (split_chars_complete c d) as H2.
  rewrite H, Hl in H1. rewrite H1 in H2. injection H2; auto.
Qed.

(** Past the end there is no boundary. *)
Lemma boundary_le cs n : boundary cs n -> n <= chars_len cs.
Proof. intros [a [b [-> <-]]]. rewrite chars_len_app. lia. Qed.
Lemma boundary_end cs : boundary cs (chars_len cs).
Proof. exists cs, []. now rewrite app_nil_r. Qed.
Lemma boundary_zero cs : boundary cs 0.
Proof. exists [], cs. auto. Qed.

Lemma strref_advance_at (s : strref) a b :
  chars (sr_str s) = a ++ b ->
  strref_advance s (chars_len a) = Ret (StrRef (sr_alloc s) (sr_off s + chars_len a) (Str b)).
Proof. intros H. unfold strref_advance. now rewrite H, split_chars_complete. Qed.

Lemma strref_advance_off (s : strref) n :
  ~ boundary (chars (sr_str s)) n -> strref_advance s n = Ret static_empty.
Proof. intros H. unfold strref_advance. apply split_chars_none in H. now rewrite H. Qed.

Lemma strref_advance_past (s : strref) n :
  str_len (sr_str s) < n -> strref_advance s n = Ret static_empty.
Proof. intros H. apply strref_advance_off. intros Hb. apply boundary_le in Hb. unfold str_len in H. lia. Qed.

Lemma strref_advance_total (s : strref) n : exists s', strref_advance s n = Ret s'.
Proof. unfold strref_advance. destruct (split_chars _ _) as [[? ?]|]; eauto. Qed.

Lemma strref_advance_suffix (s s' : strref) n :
  strref_advance s n = Ret s' -> exists a, chars (sr_str s) = a ++ chars (sr_str s').
Proof.
  unfold strref_advance. destruct (split_chars _ _) as [[a b]|] eqn:E; injection 1 as <-; cbn.
  - apply split_chars_sound in E. exists a. tauto.
  - exists (chars (sr_str s)). now rewrite app_nil_r.
Qed.

Lemma strref_advance_add (s : strref) n m :
  boundary (chars (sr_str s)) n ->
  (s' <- strref_advance s n ;; strref_advance s' m) = strref_advance s (n + m).
Proof.
  intros [a [b [Hs <-]]]. rewrite (strref_advance_at _ _ _ Hs). cbn [bind].
  destruct (boundary_dec b m) as [[[b1 b2] Hb]|Hb].
  - apply split_chars_sound in Hb. destruct Hb as [-> <-].
    rewrite (@strref_advance_at (StrRef (sr_alloc s) (sr_off s + chars_len a) (Str (b1 ++ b2))) b1 b2 eq_refl). cbn [sr_alloc sr_off].
    rewrite <- chars_len_app.
    rewrite (strref_advance_at _ (a ++ b1) b2) by (rewrite Hs; apply app_assoc).
    rewrite chars_len_app. now rewrite Nat.add_assoc.
  - pose proof Hb as Hb'. apply split_chars_none in Hb.
    rewrite strref_advance_off by exact Hb. rewrite strref_advance_off; auto.
    intros [x [y [Hxy Hl]]]. apply Hb. rewrite Hs in Hxy.
    assert (prefix a x) as [z ->].
    { clear - Hxy Hl. revert a Hxy Hl. induction x as [|c x IH]; intros a Hxy Hl.
      - cbn in Hl. symmetry in Hl. apply Nat.eq_add_0 in Hl. destruct Hl as [Ha _].
        apply chars_len_zero in Ha. subst. exists []. reflexivity.
      - destruct a as [|c' a]. { now exists (c :: x). }
        cbn in Hxy. injection Hxy as -> Hxy.
        rewrite !chars_len_cons in Hl. destruct (IH a Hxy) as [z ->]; [lia|]. now exists z. }
    rewrite <- app_assoc in Hxy. apply app_inv_head in Hxy.
    exists z, y. split; auto. rewrite chars_len_app in Hl. lia.
Qed.

Lemma later_str_refl s : later_str s s.
Proof. exists []. split; auto. destruct s; cbn. now rewrite Nat.add_0_r. Qed.
Lemma later_str_trans s1 s2 s3 : later_str s1 s2 -> later_str s2 s3 -> later_str s1 s3.
Proof.
  intros [d1 [H1 E1]] [d2 [H2 E2]]. exists (d1 ++ d2). split.
  - rewrite H1, H2. now rewrite app_assoc.
  - rewrite E2, E1. cbn. rewrite chars_len_app, Nat.add_assoc. reflexivity.
Qed.
Lemma strref_rewind_later s s' : later_str s s' -> strref_rewind s' s = Ret s.
Proof.
  intros [d [H1 E1]]. unfold strref_rewind, str_len. rewrite E1; cbn. rewrite Nat.eqb_refl; cbn.
  rewrite H1, chars_len_app.
  destruct (Z.ltb_spec (Z.of_nat (sr_off s + chars_len d) - Z.of_nat (sr_off s)) 0); [lia|].
  destruct (Z.leb_spec (Z.of_nat (sr_off s + chars_len d) - Z.of_nat (sr_off s)) (Z.of_nat (chars_len d + chars_len (chars (sr_str s'))))); [|lia].
  reflexivity.
Qed.
Lemma str_lawful : lawful_rewind later_str.
Proof.
  constructor; [apply later_str_refl|apply later_str_trans|].
  intros s s' H. now apply strref_rewind_later.
Qed.

Lemma strref_advance_later (s s' : strref) n :
  boundary (chars (sr_str s)) n -> strref_advance s n = Ret s' -> later_str s s'.
Proof.
  intros [a [b [Hs <-]]] H. rewrite (strref_advance_at _ _ _ Hs) in H. injection H as <-.
  exists a. auto.
Qed.

Lemma strref_history_static ns s s' :
  sr_alloc s = 0 -> sr_str s = Str [] -> advances ns s = Ret s' ->
  sr_alloc s' = 0.
Proof.
  revert s. induction ns as [|n ns IH]; intros s Ha Hs H; cbn in H.
  - injection H as <-. auto.
  - destruct (strref_advance s n) as [s1| | |] eqn:E; try discriminate. cbn in H.
    unfold strref_advance in E. rewrite Hs in E. cbn [chars] in E.
    destruct n as [|n]; cbn in E; injection E as <-; eapply IH in H; auto.
Qed.

Lemma strref_rewind_history_iff ns s s' :
  sr_alloc s <> 0 -> advances ns s = Ret s' ->
  (rewind s' (anchor s) = Ret s <-> hits_boundaries (chars (sr_str s)) ns).
Proof.
  intros Hal Hadv. split.
  - intros Hr.
    assert (sr_alloc s' = sr_alloc s) as Heq.
    { cbn in Hr. unfold strref_rewind in Hr.
      destruct (Nat.eqb_spec (sr_alloc s') (sr_alloc s)); auto. discriminate. }
    clear Hr. rewrite <- Heq in Hal. clear Heq.
    revert s Hadv. induction ns as [|n ns IH]; intros s Hadv; cbn; auto.
    cbn in Hadv. destruct (strref_advance s n) as [s1| | |] eqn:E; try discriminate. cbn in Hadv.
    destruct (boundary_dec (chars (sr_str s)) n) as [[[a b] Hb]|Hb].
    + apply split_chars_sound in Hb. destruct Hb as [Hb <-]. exists a, b.
      rewrite (strref_advance_at _ _ _ Hb) in E. injection E as <-. apply IH in Hadv. auto.
    + apply split_chars_none in Hb. rewrite strref_advance_off in E by exact Hb. injection E as <-.
      apply strref_history_static in Hadv; auto. congruence.
  - intros Hb. apply strref_rewind_later.
    clear Hal. revert s Hadv Hb. induction ns as [|n ns IH]; intros s Hadv Hb; cbn in *.
    + injection Hadv as <-. apply later_str_refl.
    + destruct Hb as [a [b [Hs [<- Hb]]]]. rewrite (strref_advance_at _ _ _ Hs) in Hadv. cbn in Hadv.
      eapply later_str_trans; [|apply IH; eauto]. exists a. auto.
Qed.

Lemma str_lawful_text : lawful_text (S := strref).
Proof.
  intros s a b Hc. unfold text in Hc; cbn in Hc. rewrite app_nil_r in Hc.
  exists (StrRef (sr_alloc s) (sr_off s + chars_len a) (Str b)). split.
  - apply strref_advance_at, Hc.
  - unfold text; cbn. now rewrite app_nil_r.
Qed.

(** ** Measured sequences *)
Section MeasuredSlice.
  Context {T M : Type} {MM : Meter M (list T)}.
  Context (HM : compositional (fun m (x : list T) => meter_advance m x)).
  Variables (m0 : M) (s0 : slice T).

  Definition mslice_at (p : nat) : measured M (slice T) :=
    Measured (meter_advance m0 (firstn p (sl_data s0)))
             (Slice (sl_alloc s0) (sl_off s0 + p) (skipn p (sl_data s0))).

  Lemma mslice_at_advance p n :
    p + n <= length (sl_data s0) ->
    mslice_advance (mslice_at p) n = Ret (mslice_at (p + n)).
  Proof.
    intros Hle. unfold mslice_advance, mslice_at, slice_advance; cbn.
    rewrite skipn_length.
    destruct (Nat.leb_spec n (length (sl_data s0) - p)); [|lia]. cbn.
    destruct HM as [_ Hc]. rewrite Hc.
    rewrite firstn_add. rewrite Nat.min_r by lia.
    rewrite skipn_add, Nat.add_assoc. reflexivity.
  Qed.

  Lemma mslice_drive os f f' :
    fl_pos f <= length (sl_data s0) -> Forall (fun p => p <= length (sl_data s0)) (fl_anchors f) ->
    flat_run (length (sl_data s0)) f os = Some f' ->
    drive (fun _ n => n) (mslice_at (fl_pos f), map mslice_at (fl_anchors f)) os
      = Ret (mslice_at (fl_pos f'), map mslice_at (fl_anchors f')).
  Proof.
    revert f. induction os as [|o os IH]; intros [p ps] Hp Hps Hr; cbn in *.
    - injection Hr as <-. reflexivity.
    - destruct o as [n| |i]; cbn in *.
      + destruct (Nat.leb_spec (p + n) (length (sl_data s0))); [|discriminate].
        rewrite mslice_at_advance by auto. cbn. apply (IH (Flat (p + n) ps)); auto.
      + specialize (IH (Flat p (ps ++ [p]))). cbn in IH. rewrite map_app in IH. apply IH; auto.
        apply Forall_app. auto.
      + rewrite nth_error_map. destruct (nth_error ps i) as [q|] eqn:Hq; [|discriminate]. cbn.
        apply (IH (Flat q ps)); auto. cbn.
        rewrite Forall_forall in Hps. apply Hps. eapply nth_error_In; eauto.
  Qed.

  Lemma mslice_history os f :
    flat_run (length (sl_data s0)) (Flat 0 []) os = Some f ->
    exists ancs,
      drive (fun _ n => n) (into_measured_with m0 s0, []) os = Ret (mslice_at (fl_pos f), ancs).
  Proof.
    intros Hr. exists (map mslice_at (fl_anchors f)).
    rewrite <- (mslice_drive os (Flat 0 [])); cbn; auto; [|lia].
    unfold mslice_at, into_measured_with. destruct HM as [Hn _]. cbn. rewrite Hn.
    rewrite Nat.add_0_r. destruct s0; reflexivity.
  Qed.
End MeasuredSlice.

Section MeasuredStr.
  Context {M : Type} {MM : Meter M str}.
  Context (HM : compositional (fun m (x : list char) => meter_advance m (Str x))).
  Variables (m0 : M) (s0 : strref).
  Let cs := chars (sr_str s0).

  (** Bytes of the next [n] chars. *)
  Definition next_bytes (s : measured M strref) (n : nat) : nat :=
    chars_len (firstn n (chars (sr_str (me_base s)))).

  Definition mstr_at (p : nat) : measured M strref :=
    Measured (meter_advance m0 (Str (firstn p cs)))
             (StrRef (sr_alloc s0) (sr_off s0 + chars_len (firstn p cs)) (Str (skipn p cs))).

  Lemma mstr_at_advance p n :
    p + n <= length cs ->
    mstr_advance (mstr_at p) (next_bytes (mstr_at p) n) = Ret (mstr_at (p + n)).
  Proof.
    intros Hle. unfold mstr_advance, next_bytes, str_split_at. cbn [mstr_at me_base me_meter sr_str chars].
    rewrite <- (firstn_skipn n (skipn p cs)) at 1 2.
    set (a := firstn n (skipn p cs)). set (b := skipn n (skipn p cs)).
    assert (skipn p cs = a ++ b) as Hab by (symmetry; apply firstn_skipn).
    unfold str_len. cbn [chars]. rewrite chars_len_app, Nat.min_r by lia.
    rewrite split_chars_complete. cbn [bind].
    rewrite (strref_advance_at _ a b) by (cbn; exact Hab). cbn [bind].
    unfold mstr_at. destruct HM as [_ Hc]. rewrite Hc.
    assert (firstn (p + n) cs = firstn p cs ++ a) as -> by apply firstn_add.
    assert (skipn (p + n) cs = b) as -> by (symmetry; apply skipn_add).
    rewrite chars_len_app. cbn. rewrite Nat.add_assoc. reflexivity.
  Qed.

  Lemma mstr_drive os f f' :
    fl_pos f <= length cs -> Forall (fun p => p <= length cs) (fl_anchors f) ->
    flat_run (length cs) f os = Some f' ->
    drive next_bytes (mstr_at (fl_pos f), map mstr_at (fl_anchors f)) os
      = Ret (mstr_at (fl_pos f'), map mstr_at (fl_anchors f')).
  Proof.
    revert f. induction os as [|o os IH]; intros [p ps] Hp Hps Hr; cbn -[mstr_advance mstr_at] in *.
    - injection Hr as <-. reflexivity.
    - destruct o as [n| |i]; cbn -[mstr_advance mstr_at] in *.
      + destruct (Nat.leb_spec (p + n) (length cs)); [|discriminate].
        rewrite mstr_at_advance by auto. cbn [bind]. apply (IH (Flat (p + n) ps)); auto.
      + specialize (IH (Flat p (ps ++ [p]))). cbn -[mstr_at] in IH. rewrite map_app in IH. apply IH; auto.
        apply Forall_app. auto.
      + rewrite nth_error_map. destruct (nth_error ps i) as [q|] eqn:Hq; [|discriminate]. cbn -[mstr_at].
        apply (IH (Flat q ps)); auto. cbn.
        rewrite Forall_forall in Hps. apply Hps. eapply nth_error_In; eauto.
  Qed.

  Lemma mstr_history os f :
    flat_run (length cs) (Flat 0 []) os = Some f ->
    exists ancs,
      drive next_bytes (into_measured_with m0 s0, []) os = Ret (mstr_at (fl_pos f), ancs).
  Proof.
    intros Hr. exists (map mstr_at (fl_anchors f)).
    rewrite <- (mstr_drive os (Flat 0 [])); cbn -[mstr_at]; auto; [|lia].
    unfold mstr_at, into_measured_with. destruct HM as [Hn _]. cbn. rewrite Hn.
    rewrite Nat.add_0_r. unfold cs. destruct s0 as [? ? [?]]; reflexivity.
  Qed.

  (** Exactly where the measured string differs from the plain one. *)
  Lemma mstr_vs_plain (m : M) (s : strref) n :
    let fin := Nat.min (str_len (sr_str s)) n in
    (boundary (chars (sr_str s)) fin ->
     exists m' s', mstr_advance (Measured m s) n = Ret (Measured m' s') /\ strref_advance s n = Ret s') /\
    (~ boundary (chars (sr_str s)) fin -> mstr_advance (Measured m s) n = Panic).
  Proof.
    cbv zeta. unfold mstr_advance, str_split_at. cbn [me_base me_meter]. split; intros Hb.
    - destruct Hb as [a [b [Hs Ha]]]. rewrite <- Ha. rewrite Hs, split_chars_complete. cbn [bind].
      destruct (strref_advance_total s n) as [s' Hs']. rewrite Hs'. cbn. eauto.
    - apply split_chars_none in Hb. now rewrite Hb.
  Qed.
End MeasuredStr.

Lemma mslice_vs_plain {T M} `{Meter M (list T)} (m : M) (s : slice T) n :
  match slice_advance s n with
  | Ret s' => exists m', mslice_advance (Measured m s) n = Ret (Measured m' s')
  | _ => mslice_advance (Measured m s) n = Panic
  end.
Proof.
  unfold mslice_advance; cbn. unfold slice_advance.
  destruct (_ <=? _); cbn; eauto.
Qed.

(** Measured sequences can always be rewound. *)
Lemma mslice_lawful {T M} `{Meter M (list T)} : lawful_rewind (fun _ _ : measured M (slice T) => True).
Proof. constructor; auto. Qed.
Lemma mstr_lawful {M} `{Meter M str} : lawful_rewind (fun _ _ : measured M strref => True).
Proof. constructor; auto. Qed.

(** ** The statements of P_Seq.v *)
Lemma slice_advance_exact {T} (s : slice T) :
  (forall a b, sl_data s = a ++ b ->
     exists s', advance s (length a) = Ret s' /\ sl_data s' = b /\ later_slice s s') /\
  (forall n, length (sl_data s) < n -> advance s n = Panic).
Proof.
  split.
  - intros a b Hs. exists (Slice (sl_alloc s) (sl_off s + length a) b). split; [|split]; auto.
    + apply slice_advance_iff. exists a. auto.
    + exists a. auto.
  - intros n. apply slice_advance_past.
Qed.

Lemma slice_history_exact {T} (s : slice T) ns :
  list_sum ns <= length (sl_data s) ->
  exists s', advances ns s = Ret s' /\ sl_data s' = skipn (list_sum ns) (sl_data s) /\
        rewind s' (anchor s) = Ret s.
Proof.
  intros H. exists (Slice (sl_alloc s) (sl_off s + list_sum ns) (skipn (list_sum ns) (sl_data s))).
  assert (advances ns s = Ret (Slice (sl_alloc s) (sl_off s + list_sum ns) (skipn (list_sum ns) (sl_data s)))) as Ha.
  { apply slice_advances_iff. unfold slice_advance.
    destruct (Nat.leb_spec (list_sum ns) (length (sl_data s))); [reflexivity|lia]. }
  split; auto. split; auto. eapply slice_rewind_history; eauto.
Qed.

Lemma slice_rewind_ahead {T} (s s' : slice T) ns :
  advances ns s = Ret s' -> 0 < list_sum ns -> rewind s (anchor s') = Panic.
Proof.
  intros H Hp. apply slice_advances_iff in H. apply slice_rewind_earlier.
  - eapply slice_advance_later; eauto.
  - apply slice_advance_iff in H. destruct H as [d [Hd [Hs _]]]. rewrite Hs.
    intros He. apply (f_equal (@length T)) in He. rewrite app_length in He.
    cbn in He. lia.
Qed.

Lemma slice_zst_panics {T} (s anc : slice T) : slice_rewind true s anc = Panic.
Proof. reflexivity. Qed.

Lemma str_advance_exact (s : strref) :
  (forall a b, chars (sr_str s) = a ++ b ->
     exists s', advance s (chars_len a) = Ret s' /\ chars (sr_str s') = b /\ later_str s s') /\
  (forall n, chars_len (chars (sr_str s)) < n ->
     exists s', advance s n = Ret s' /\ chars (sr_str s') = []) /\
  (forall n, ~ boundary (chars (sr_str s)) n ->
     exists s', advance s n = Ret s' /\ chars (sr_str s') = []) /\
  (forall n, exists s' a, advance s n = Ret s' /\ chars (sr_str s) = a ++ chars (sr_str s')).
Proof.
  split; [|split; [|split]].
  - intros a b Hs. exists (StrRef (sr_alloc s) (sr_off s + chars_len a) (Str b)). split; [|split]; auto.
    + now apply strref_advance_at.
    + exists a. auto.
  - intros n Hn. exists static_empty. split; auto. now apply strref_advance_past.
  - intros n Hn. exists static_empty. split; auto. now apply strref_advance_off.
  - intros n. destruct (strref_advance_total s n) as [s' Hs']. exists s'.
    destruct (strref_advance_suffix _ _ Hs') as [a Ha]. eauto.
Qed.

Lemma str_rewind_past_end :
  advance (StrRef 3 10 (Str [97; 233; 8364]%N)) 100 = Ret static_empty /\
  3 <> sr_alloc static_empty /\
  rewind static_empty (anchor (StrRef 3 10 (Str [97; 233; 8364]%N))) = UB.
Proof. repeat split. discriminate. Qed.

Lemma mslice_history_exact {T M} `{Meter M (list T)} (m0 : M) (s0 : slice T) os f :
  compositional (fun m (x : list T) => meter_advance m x) ->
  flat_run (length (sl_data s0)) (Flat 0 []) os = Some f ->
  exists s ancs,
    drive (fun _ n => n) (into_measured_with m0 s0, []) os = Ret (s, ancs) /\
    concat (segments s) = skipn (fl_pos f) (sl_data s0) /\
    me_base s = Slice (sl_alloc s0) (sl_off s0 + fl_pos f) (skipn (fl_pos f) (sl_data s0)) /\
    me_meter s = meter_advance m0 (firstn (fl_pos f) (sl_data s0)).
Proof.
  intros HM Hr. destruct (mslice_history HM m0 s0 os Hr) as [ancs Ha].
  exists (mslice_at m0 s0 (fl_pos f)), ancs. repeat split; auto. cbn. now rewrite app_nil_r.
Qed.

Lemma mstr_history_exact {M} `{Meter M str} (m0 : M) (s0 : strref) os f :
  compositional (fun m (x : list char) => meter_advance m (Str x)) ->
  flat_run (length (chars (sr_str s0))) (Flat 0 []) os = Some f ->
  exists s ancs,
    drive (fun s n => chars_len (firstn n (chars (sr_str (me_base s)))))
          (into_measured_with m0 s0, []) os = Ret (s, ancs) /\
    map chars (segments s) = [skipn (fl_pos f) (chars (sr_str s0))] /\
    me_meter s = meter_advance m0 (Str (firstn (fl_pos f) (chars (sr_str s0)))).
Proof.
  intros HM Hr. destruct (mstr_history HM m0 s0 os Hr) as [ancs Ha].
  exists (mstr_at m0 s0 (fl_pos f)), ancs. repeat split; auto.
Qed.

(** A flat history never leaves the text. *)
Lemma flat_run_within total os : forall f f', fl_pos f <= total -> Forall (fun p => p <= total) (fl_anchors f) ->
  flat_run total f os = Some f' -> fl_pos f' <= total.
Proof.
  induction os as [|o os IH]; intros f f' P A; cbn; [now intros [= <-]|].
  destruct (flat_step total f o) as [f1|] eqn:E; [|discriminate]. apply IH; destruct o; cbn in E.
  - destruct (Nat.leb_spec (fl_pos f + n) total); [|discriminate]. now injection E as <-.
  - now injection E as <-.
  - destruct (nth_error (fl_anchors f) i) as [p|] eqn:N; [|discriminate]. injection E as <-.
    rewrite Forall_forall in A. apply A. now apply nth_error_In in N.
  - destruct (fl_pos f + n <=? total); [|discriminate]. now injection E as <-.
  - injection E as <-. cbn. apply Forall_app. auto.
  - destruct (nth_error (fl_anchors f) i) as [p|]; [|discriminate]. now injection E as <-.
Qed.
