(** * P_Foreign: C80, rewinding to an anchor of another sequence. *)
From Verif Require Import L_Seq S_Foreign P_Seq.

(** ** Slices *)
Lemma slice_anchor_iff {T} (self anc : slice T) : anchor_of self anc <-> later_slice anc self.
Proof.
  split.
  - intros (ns & H). apply slice_advances_iff in H. eapply slice_advance_later; eauto.
  - intros (d & A & B). exists [length d]. cbn. destruct (proj1 (C28_slice_advance anc) d (sl_data self) A) as (s' & E & F & d' & G & K).
    cbn in E. rewrite E. cbn. f_equal. rewrite K, B, F. f_equal.
    assert (length d' = length d) as ->; [|reflexivity]. rewrite A, F in G. apply app_inv_tail in G. now subst.
Qed.

(** Two views of one allocation, one starting within the other: the later one is
    the rest of the earlier one exactly when they end together. *)
Lemma slice_same_end {T} (m : memory T) (self anc : slice T) :
  views m self -> views m anc -> sl_alloc self = sl_alloc anc ->
  sl_off anc <= sl_off self <= slice_end anc ->
  (later_slice anc self <-> slice_end self = slice_end anc).
Proof.
  intros (b1 & a1 & E1 & O1) (b2 & a2 & E2 & O2) A R. unfold slice_end in *. split.
  - intros (d & X & Y). rewrite Y. cbn. rewrite X, app_length. lia.
  - intros L. rewrite A, E2 in E1. exists (firstn (sl_off self - sl_off anc) (sl_data anc)).
    assert (Q : skipn (sl_off self - sl_off anc) (sl_data anc) = sl_data self).
    { assert (W : firstn (length (sl_data self)) (skipn (sl_off self) (b2 ++ sl_data anc ++ a2)) = sl_data self).
      { rewrite E1, O1, skipn_app, skipn_all, Nat.sub_diag. cbn. now rewrite firstn_app, firstn_all, Nat.sub_diag, app_nil_r. }
      rewrite skipn_app, <- O2 in W. rewrite skipn_all2 in W by lia. cbn in W. rewrite skipn_app, firstn_app in W.
      rewrite skipn_length in W. replace (length (sl_data self) - (length (sl_data anc) - (sl_off self - sl_off anc))) with 0 in W by lia.
      cbn in W. rewrite app_nil_r, firstn_all2 in W; [auto|]. rewrite skipn_length. lia. }
    split; [rewrite <- Q at 1; symmetry; rewrite Q at 1; rewrite <- Q; apply firstn_skipn|].
    destruct self as [al of da]. cbn in *. subst al. f_equal. rewrite firstn_length. lia.
Qed.

(** The outcome for any two slices: undefined behaviour across allocations, the
    anchor if the position lies in it, a panic otherwise. *)
Theorem C80_slice_exact_partial {T} (self anc : slice T) :
  (sl_alloc self <> sl_alloc anc -> rewind self anc = UB) /\
  (sl_alloc self = sl_alloc anc -> sl_off anc <= sl_off self <= slice_end anc -> rewind self anc = Ret anc) /\
  (sl_alloc self = sl_alloc anc -> ~ sl_off anc <= sl_off self <= slice_end anc -> rewind self anc = Panic).
Proof.
  cbn [rewind slice_rewind_sequence]. unfold slice_rewind, slice_end.
  repeat split; intros A; [apply Nat.eqb_neq in A|apply Nat.eqb_eq in A|apply Nat.eqb_eq in A]; rewrite A; cbn [negb]; auto; intros R.
  - destruct (Z.ltb_spec (Z.of_nat (sl_off self) - Z.of_nat (sl_off anc)) 0); [lia|].
    destruct (Z.leb_spec (Z.of_nat (sl_off self) - Z.of_nat (sl_off anc)) (Z.of_nat (length (sl_data anc)))); [reflexivity|lia].
  - destruct (Z.ltb_spec (Z.of_nat (sl_off self) - Z.of_nat (sl_off anc)) 0); [reflexivity|].
    destruct (Z.leb_spec (Z.of_nat (sl_off self) - Z.of_nat (sl_off anc)) (Z.of_nat (length (sl_data anc)))); [lia|reflexivity].
Qed.

(** Slices with the same end: exactly the own anchors are accepted, and the others refused. *)
Theorem C80_slice_same_end_partial {T} (m : memory T) (self anc : slice T) :
  views m self -> views m anc -> sl_alloc self = sl_alloc anc -> slice_end self = slice_end anc ->
  (anchor_of self anc -> rewind self anc = Ret anc) /\ (~ anchor_of self anc -> rewind self anc = Panic).
Proof.
  intros V W A L. rewrite slice_anchor_iff. split.
  - intros H. now apply slice_rewind_later.
  - intros H. destruct (C80_slice_exact_partial self anc) as (_ & _ & P). apply P; [exact A|].
    intros R. apply H. now apply (slice_same_end m).
Qed.

(** A foreign anchor is taken for an own one exactly when it ends elsewhere. *)
Theorem C80_slice_accepted_partial {T} (m : memory T) (self anc : slice T) :
  views m self -> views m anc ->
  (rewind self anc = Ret anc /\ ~ anchor_of self anc <->
   sl_alloc self = sl_alloc anc /\ sl_off anc <= sl_off self <= slice_end anc /\ slice_end self <> slice_end anc).
Proof.
  intros V W. rewrite slice_anchor_iff. destruct (C80_slice_exact_partial self anc) as (P1 & P2 & P3). split.
  - intros (R & N). destruct (Nat.eq_dec (sl_alloc self) (sl_alloc anc)) as [A|A]; [|rewrite P1 in R by auto; discriminate].
    assert (D : sl_off anc <= sl_off self <= slice_end anc \/ ~ sl_off anc <= sl_off self <= slice_end anc) by lia.
    destruct D as [D|D]; [|rewrite P3 in R by auto; discriminate].
    split; [auto|]. split; [auto|]. intros L. apply N. now apply (slice_same_end m).
  - intros (A & D & L). split; [auto|]. intros N. apply L. now apply (slice_same_end m).
Qed.

(** Both happen in safe code. *)
Theorem C80_slice_undefined_refuted :
  exists (m : memory nat) self anc, views m self /\ views m anc /\ ~ anchor_of self anc /\ rewind self anc = UB.
Proof.
  exists (fun a => [a]), (Slice 1 0 [1]), (Slice 2 0 [2]).
  split; [now exists [], []|]. split; [now exists [], []|]. split; [|reflexivity].
  rewrite slice_anchor_iff. intros (d & _ & E). discriminate.
Qed.

(** [&a[1..2]] rewound to an anchor of [&a[..4]] becomes [&a[..4]]. *)
Theorem C80_slice_accepted_refuted :
  exists (m : memory nat) self anc, views m self /\ views m anc /\ ~ anchor_of self anc /\
    rewind self anc = Ret anc /\ length (sl_data self) = 1 /\ length (sl_data anc) = 4.
Proof.
  exists (fun _ => [5; 6; 7; 8]), (Slice 1 1 [6]), (Slice 1 0 [5; 6; 7; 8]).
  split; [now exists [5], [7; 8]|]. split; [now exists [], []|]. split; [|repeat split].
  rewrite slice_anchor_iff. intros (d & E & _). apply (f_equal (@rev nat)) in E. rewrite rev_app_distr in E. discriminate.
Qed.

(** ** Strings *)
Theorem C80_str_exact_partial (self anc : strref) :
  (sr_alloc self <> sr_alloc anc -> rewind self anc = UB) /\
  (sr_alloc self = sr_alloc anc -> sr_off anc <= sr_off self <= str_end anc -> rewind self anc = Ret anc) /\
  (sr_alloc self = sr_alloc anc -> ~ sr_off anc <= sr_off self <= str_end anc -> rewind self anc = Panic).
Proof.
  cbn [rewind strref_rewind_sequence]. unfold strref_rewind, str_end, str_len.
  repeat split; intros A; [apply Nat.eqb_neq in A|apply Nat.eqb_eq in A|apply Nat.eqb_eq in A]; rewrite A; cbn [negb]; auto; intros R.
  - destruct (Z.ltb_spec (Z.of_nat (sr_off self) - Z.of_nat (sr_off anc)) 0); [lia|].
    destruct (Z.leb_spec (Z.of_nat (sr_off self) - Z.of_nat (sr_off anc)) (Z.of_nat (chars_len (chars (sr_str anc))))); [reflexivity|lia].
  - destruct (Z.ltb_spec (Z.of_nat (sr_off self) - Z.of_nat (sr_off anc)) 0); [reflexivity|].
    destruct (Z.leb_spec (Z.of_nat (sr_off self) - Z.of_nat (sr_off anc)) (Z.of_nat (chars_len (chars (sr_str anc))))); [lia|reflexivity].
Qed.

(** Off the empty literal, own anchors of a string are those from which it was
    reached along character boundaries. *)
Lemma str_anchor_iff (self anc : strref) : sr_alloc self <> sr_alloc static_empty ->
  (anchor_of self anc <-> later_str anc self).
Proof.
  intros A. split.
  - intros (ns & H). revert anc H. induction ns as [|n ns IH]; intros anc H; cbn in H.
    + injection H as <-. apply later_str_refl.
    + destruct (strref_advance anc n) as [s1| | |] eqn:E; try discriminate. cbn in H. specialize (IH _ H).
      eapply later_str_trans; [|exact IH]. destruct (boundary_dec (chars (sr_str anc)) n) as [[[a b] Hb]|Hb].
      * apply split_chars_sound in Hb. eapply strref_advance_later; [exists a, b; exact Hb|exact E].
      * apply split_chars_none in Hb. rewrite strref_advance_off in E by exact Hb. injection E as <-.
        exfalso. destruct IH as (d & _ & F). apply A. now rewrite F.
  - intros (d & X & Y). exists [chars_len d]. cbn. rewrite (strref_advance_at _ _ _ X). cbn.
    f_equal. rewrite Y. destruct (sr_str self). reflexivity.
Qed.

Lemma chars_prefix_eq a b c d : a ++ b = c ++ d -> chars_len a = chars_len c -> a = c /\ b = d.
Proof.
  revert c. induction a as [|x a IH]; intros [|y c] E L; cbn in E; auto.
  - rewrite chars_len_cons in L. pose proof (len_utf8_pos y). cbn in L. lia.
  - rewrite chars_len_cons in L. pose proof (len_utf8_pos x). cbn in L. lia.
  - injection E as <- E. rewrite !chars_len_cons in L. destruct (IH c E) as (-> & ->); [lia|auto].
Qed.

Lemma str_same_end (m : memory char) (self anc : strref) :
  views_str m self -> views_str m anc -> sr_alloc self = sr_alloc anc ->
  sr_off anc <= sr_off self <= str_end anc ->
  (later_str anc self <-> str_end self = str_end anc).
Proof.
  intros (b1 & a1 & E1 & O1) (b2 & a2 & E2 & O2) A R. unfold str_end in *. split.
  - intros (d & X & Y). rewrite Y. cbn. rewrite X, chars_len_app. lia.
  - intros L. rewrite A, E2 in E1.
    assert (D : exists d, b1 = b2 ++ d).
    { assert (G : forall (a b c d : list char), a ++ b = c ++ d -> chars_len a <= chars_len c -> exists e, c = a ++ e).
      { induction a as [|x a IH]; intros b c d E Q; [now exists c|]. destruct c as [|y c].
        - rewrite chars_len_cons in Q. pose proof (len_utf8_pos x). cbn in Q. lia.
        - cbn in E. injection E as <- E. rewrite !chars_len_cons in Q. destruct (IH _ _ _ E) as (e & ->); [lia|]. now exists e. }
      apply (G b2 (chars (sr_str anc) ++ a2) b1 (chars (sr_str self) ++ a1)); [auto|lia]. }
    destruct D as (d & ->). rewrite <- app_assoc in E1. apply app_inv_head in E1.
    rewrite chars_len_app in O1. rewrite (app_assoc d) in E1.
    destruct (chars_prefix_eq _ _ _ _ E1) as (F & _); [rewrite chars_len_app; lia|].
    exists d. split; [exact F|]. destruct self as [al of st]. cbn in *. subst al. f_equal. lia.
Qed.

Theorem C80_str_same_end_partial (m : memory char) (self anc : strref) :
  sr_alloc self <> sr_alloc static_empty ->
  views_str m self -> views_str m anc -> sr_alloc self = sr_alloc anc -> str_end self = str_end anc ->
  (anchor_of self anc -> rewind self anc = Ret anc) /\ (~ anchor_of self anc -> rewind self anc = Panic).
Proof.
  intros NS V W A L. rewrite str_anchor_iff by auto. split.
  - intros H. now apply strref_rewind_later.
  - intros H. destruct (C80_str_exact_partial self anc) as (_ & _ & P). apply P; [exact A|].
    intros R. apply H. now apply (str_same_end m).
Qed.

Theorem C80_str_accepted_partial (m : memory char) (self anc : strref) :
  sr_alloc self <> sr_alloc static_empty -> views_str m self -> views_str m anc ->
  (rewind self anc = Ret anc /\ ~ anchor_of self anc <->
   sr_alloc self = sr_alloc anc /\ sr_off anc <= sr_off self <= str_end anc /\ str_end self <> str_end anc).
Proof.
  intros NS V W. rewrite str_anchor_iff by auto. destruct (C80_str_exact_partial self anc) as (P1 & P2 & P3). split.
  - intros (R & N). destruct (Nat.eq_dec (sr_alloc self) (sr_alloc anc)) as [A|A]; [|rewrite P1 in R by auto; discriminate].
    assert (D : sr_off anc <= sr_off self <= str_end anc \/ ~ sr_off anc <= sr_off self <= str_end anc) by lia.
    destruct D as [D|D]; [|rewrite P3 in R by auto; discriminate].
    split; [auto|]. split; [auto|]. intros L. apply N. now apply (str_same_end m).
  - intros (A & D & L). split; [auto|]. intros N. apply L. now apply (str_same_end m).
Qed.

Theorem C80_str_undefined_refuted :
  exists (m : memory char) self anc, sr_alloc self <> sr_alloc static_empty /\
    views_str m self /\ views_str m anc /\ ~ anchor_of self anc /\ rewind self anc = UB.
Proof.
  exists (fun _ => [97]%N), (StrRef 1 0 (Str [97]%N)), (StrRef 2 0 (Str [97]%N)).
  split; [discriminate|]. split; [now exists [], []|]. split; [now exists [], []|]. split; [|reflexivity].
  rewrite str_anchor_iff by discriminate. intros (d & _ & E). discriminate.
Qed.

(** ** Measured sequences do not look at all *)
Lemma mslice_stays {T M} `{Meter M (list T)} ns : forall a b : measured M (slice T),
  advances ns a = Ret b -> sl_alloc (me_base b) = sl_alloc (me_base a).
Proof.
  induction ns as [|n ns IH]; intros a b R; cbn in R; [now injection R as <-|].
  match type of R with bind ?x _ = _ => destruct x as [a'| | |] eqn:Q; try discriminate end. cbn in R.
  rewrite (IH _ _ R). unfold mslice_advance in Q. destruct a as [am [al of da]]. cbn in Q.
  destruct (slice_advance (Slice al of da) n) as [b1| | |] eqn:A; cbn in Q; try (destruct (n <=? length da); discriminate).
  unfold slice_advance in A. cbn in A. destruct (n <=? length da); [|discriminate].
  injection A as <-. cbn in Q. now injection Q as <-.
Qed.
Lemma mstr_stays {M} `{Meter M str} ns : forall a b : measured M strref,
  advances ns a = Ret b -> sr_alloc (me_base b) = sr_alloc (me_base a) \/ sr_alloc (me_base b) = sr_alloc static_empty.
Proof.
  induction ns as [|n ns IH]; intros a b R; cbn in R; [injection R as <-; auto|].
  match type of R with bind ?x _ = _ => destruct x as [a'| | |] eqn:Q; try discriminate end. cbn in R.
  specialize (IH _ _ R). unfold mstr_advance in Q.
  destruct (str_split_at _ _) as [[c r]| | |]; try discriminate. cbn in Q.
  unfold strref_advance in Q. destruct (split_chars _ n) as [[x y]|]; cbn in Q; injection Q as <-; cbn in IH; tauto.
Qed.

(** Anchors into another allocation are all taken. *)
Theorem C80_measured_slice_partial {T M} `{Meter M (list T)} (self anc : measured M (slice T)) :
  sl_alloc (me_base self) <> sl_alloc (me_base anc) -> ~ anchor_of self anc /\ rewind self anc = Ret anc.
Proof. intros D. split; [|reflexivity]. intros (ns & R). apply D. exact (mslice_stays ns anc self R). Qed.
Theorem C80_measured_str_partial {M} `{Meter M str} (self anc : measured M strref) :
  sr_alloc (me_base self) <> sr_alloc (me_base anc) -> sr_alloc (me_base self) <> sr_alloc static_empty ->
  ~ anchor_of self anc /\ rewind self anc = Ret anc.
Proof. intros D N. split; [|reflexivity]. intros (ns & R). destruct (mstr_stays ns anc self R); auto. Qed.

Theorem C80_measured_refuted :
  exists (m : memory nat) (self anc : measured nat (slice nat)),
    views m (me_base self) /\ views m (me_base anc) /\ ~ anchor_of self anc /\ rewind self anc = Ret anc.
Proof.
  exists (fun a => [a]), (Measured 3 (Slice 1 0 [1])), (Measured 9 (Slice 2 0 [2])).
  split; [now exists [], []|]. split; [now exists [], []|]. apply C80_measured_slice_partial. discriminate.
Qed.

(** ** Cases *)
(** The same array: an anchor behind is taken, one ahead refused. *)
Example C80_case :
  let m := fun _ : nat => [5; 6; 7; 8] in
  let whole := Slice 1 0 [5; 6; 7; 8] in let tail := Slice 1 2 [7; 8] in
  views m whole /\ views m tail /\ slice_end whole = slice_end tail /\
  anchor_of tail whole /\ ~ anchor_of whole tail /\ rewind tail whole = Ret whole /\ rewind whole tail = Panic.
Proof.
  cbn zeta. split; [now exists [], []|]. split; [now exists [5; 6], []|]. split; [reflexivity|].
  split; [now exists [1; 1]|]. split; [|repeat split].
  rewrite slice_anchor_iff. intros (d & E & _). apply (f_equal (@length nat)) in E. rewrite app_length in E. cbn in E. lia.
Qed.
Example C80_str_case :
  let m := fun _ : nat => [97; 233; 8364]%N in
  views_str m (StrRef 3 0 (Str [97; 233]%N)) /\ views_str m (StrRef 3 1 (Str [233; 8364]%N)) /\
  rewind (StrRef 3 1 (Str [233; 8364]%N)) (StrRef 3 0 (Str [97; 233]%N)) = Ret (StrRef 3 0 (Str [97; 233]%N)) /\
  rewind (StrRef 3 0 (Str [97; 233]%N)) (StrRef 3 1 (Str [233; 8364]%N)) = Panic.
Proof. cbn zeta. split; [now exists [], [8364]%N|]. split; [now exists [97]%N, []|]. split; reflexivity. Qed.

Print Assumptions C80_slice_exact_partial.
Print Assumptions C80_slice_same_end_partial.
Print Assumptions C80_slice_accepted_partial.
Print Assumptions C80_slice_undefined_refuted.
Print Assumptions C80_slice_accepted_refuted.
Print Assumptions C80_str_exact_partial.
Print Assumptions C80_str_same_end_partial.
Print Assumptions C80_str_accepted_partial.
Print Assumptions C80_str_undefined_refuted.
Print Assumptions C80_measured_slice_partial.
Print Assumptions C80_measured_str_partial.
Print Assumptions C80_measured_refuted.
