(** * L_Utf8: lemmas on UTF-8. *)
From Coq Require Import Lia ZifyN ZifyBool.
From Verif Require Export M_Utf8 S_Utf8 L_Base.

Local Ltac Zify.zify_post_hook ::= Z.to_euclidean_division_equations.

Lemma in_range_spec lo hi b : in_range lo hi b = true <-> (lo <= b <= hi)%N.
Proof. unfold in_range. rewrite andb_true_iff, N.leb_le, N.leb_le. reflexivity. Qed.

Ltac wf_crush := unfold wf1, wf2, wf3, wf4, cont in *; unfold in_range in *; lia.

Lemma encode_wf c : scalar c ->
  match encode c with
  | [b0] => wf1 b0 = true
  | [b0; b1] => wf1 b0 = false /\ wf2 b0 b1 = true
  | [b0; b1; b2] => wf1 b0 = false /\ wf2 b0 b1 = false /\ wf3 b0 b1 b2 = true
  | [b0; b1; b2; b3] => wf1 b0 = false /\ wf2 b0 b1 = false /\ wf3 b0 b1 b2 = false /\ wf4 b0 b1 b2 b3 = true
  | _ => False
  end.
Proof.
  unfold scalar, encode. intros S.
  destruct (N.ltb_spec c 0x80); [wf_crush|].
  destruct (N.ltb_spec c 0x800); [wf_crush|].
  destruct (N.ltb_spec c 0x10000); [wf_crush|].
  wf_crush.
Qed.

Lemma wf1_encode b0 : wf1 b0 = true -> exists c, scalar c /\ encode c = [b0].
Proof.
  intros H. exists b0. unfold scalar, encode. destruct (N.ltb_spec b0 0x80); [|wf_crush].
  split; auto. lia.
Qed.

Lemma wf2_encode b0 b1 : wf2 b0 b1 = true -> exists c, scalar c /\ encode c = [b0; b1].
Proof.
  intros H. exists ((b0 - 0xC0) * 64 + (b1 - 0x80))%N. unfold scalar, encode.
  destruct (N.ltb_spec ((b0 - 0xC0) * 64 + (b1 - 0x80)) 0x80); [wf_crush|].
  destruct (N.ltb_spec ((b0 - 0xC0) * 64 + (b1 - 0x80)) 0x800); [|wf_crush].
  split; [lia|]. repeat f_equal; wf_crush.
Qed.

Lemma wf3_encode b0 b1 b2 : wf3 b0 b1 b2 = true -> exists c, scalar c /\ encode c = [b0; b1; b2].
Proof.
  intros H. set (c := ((b0 - 0xE0) * 4096 + (b1 - 0x80) * 64 + (b2 - 0x80))%N).
  assert (S : scalar c) by (unfold scalar, c; wf_crush).
  exists c. split; [auto|]. unfold encode.
  destruct (N.ltb_spec c 0x80); [unfold c in *; wf_crush|].
  destruct (N.ltb_spec c 0x800); [unfold c in *; wf_crush|].
  destruct (N.ltb_spec c 0x10000); [|unfold c in *; wf_crush].
  repeat f_equal; unfold c; wf_crush.
Qed.

Lemma wf4_encode b0 b1 b2 b3 : wf4 b0 b1 b2 b3 = true -> exists c, scalar c /\ encode c = [b0; b1; b2; b3].
Proof.
  intros H. set (c := ((b0 - 0xF0) * 262144 + (b1 - 0x80) * 4096 + (b2 - 0x80) * 64 + (b3 - 0x80))%N).
  assert (S : scalar c) by (unfold scalar, c; wf_crush).
  exists c. split; [auto|]. unfold encode.
  destruct (N.ltb_spec c 0x80); [unfold c in *; wf_crush|].
  destruct (N.ltb_spec c 0x800); [unfold c in *; wf_crush|].
  destruct (N.ltb_spec c 0x10000); [unfold c in *; wf_crush|].
  repeat f_equal; unfold c; wf_crush.
Qed.

Lemma encode_length c : scalar c -> 1 <= length (encode c) <= 4.
Proof.
  intros S. pose proof (encode_wf c S) as H.
  destruct (encode c) as [|? [|? [|? [|? [|? ?]]]]]; cbn; try lia; contradiction.
Qed.

(** ** [valid_up_to] *)
Lemma v_encode c r : scalar c -> valid_up_to (encode c ++ r) = length (encode c) + valid_up_to r.
Proof.
  intros S. pose proof (encode_wf c S) as H.
  destruct (encode c) as [|b0 [|b1 [|b2 [|b3 [|? ?]]]]]; try contradiction; cbn [app length valid_up_to].
  - now rewrite H.
  - destruct H as (-> & ->). reflexivity.
  - destruct H as (-> & -> & ->). reflexivity.
  - destruct H as (-> & -> & -> & ->). reflexivity.
Qed.

Lemma v_text text r : Forall scalar text ->
  valid_up_to (flat_map encode text ++ r) = length (flat_map encode text) + valid_up_to r.
Proof.
  induction 1 as [|c text S F IH]; cbn; auto.
  rewrite <- app_assoc, v_encode, IH, app_length by auto. lia.
Qed.

(** The part it accepts is a text, and no character starts after it. *)
Lemma v_split_aux n : forall l, length l <= n -> exists text r,
  Forall scalar text /\ l = flat_map encode text ++ r /\ valid_up_to r = 0.
Proof.
  assert (ONE : forall n (IH : forall l, length l <= n -> exists text r,
      Forall scalar text /\ l = flat_map encode text ++ r /\ valid_up_to r = 0) c bs l,
      scalar c -> encode c = bs -> length l <= n -> exists text r,
      Forall scalar text /\ bs ++ l = flat_map encode text ++ r /\ valid_up_to r = 0).
  { clear. intros n IH c bs l S <- L. destruct (IH l L) as (text & r & F & -> & Z).
    exists (c :: text), r. cbn. rewrite <- app_assoc. auto. }
  assert (NONE : forall l, valid_up_to l = 0 -> exists text r,
      Forall scalar text /\ l = flat_map encode text ++ r /\ valid_up_to r = 0).
  { intros l Z. exists [], l. auto. }
  induction n as [|n IH]; intros l L.
  { destruct l; [|cbn in L; lia]. now apply NONE. }
  destruct l as [|b0 l]; [now apply NONE|]. cbn in L.
  destruct (wf1 b0) eqn:W1.
  { destruct (wf1_encode _ W1) as (c & S & EQ). apply (ONE n IH c [b0] l); auto. lia. }
  destruct l as [|b1 l]; [apply NONE; cbn; now rewrite W1|]. cbn in L.
  destruct (wf2 b0 b1) eqn:W2.
  { destruct (wf2_encode _ _ W2) as (c & S & EQ). apply (ONE n IH c [b0; b1] l); auto. lia. }
  destruct l as [|b2 l]; [apply NONE; cbn; now rewrite W1, W2|]. cbn in L.
  destruct (wf3 b0 b1 b2) eqn:W3.
  { destruct (wf3_encode _ _ _ W3) as (c & S & EQ). apply (ONE n IH c [b0; b1; b2] l); auto. lia. }
  destruct l as [|b3 l]; [apply NONE; cbn; now rewrite W1, W2, W3|]. cbn in L.
  destruct (wf4 b0 b1 b2 b3) eqn:W4.
  { destruct (wf4_encode _ _ _ _ W4) as (c & S & EQ). apply (ONE n IH c [b0; b1; b2; b3] l); auto. lia. }
  apply NONE. cbn. now rewrite W1, W2, W3, W4.
Qed.

Lemma v_split l : exists text r, Forall scalar text /\ l = flat_map encode text ++ r
  /\ valid_up_to r = 0 /\ valid_up_to l = length (flat_map encode text)
  /\ firstn (valid_up_to l) l = flat_map encode text /\ skipn (valid_up_to l) l = r.
Proof.
  destruct (v_split_aux (length l) l (le_n _)) as (text & r & F & -> & Z).
  exists text, r. rewrite v_text, Z, Nat.add_0_r by auto.
  rewrite firstn_length_app, skipn_length_app. auto 10.
Qed.

Lemma utf8_nil : utf8 [].
Proof. exists []. auto. Qed.
Lemma utf8_app a b : utf8 a -> utf8 b -> utf8 (a ++ b).
Proof.
  intros (ta & Fa & ->) (tb & Fb & ->). exists (ta ++ tb). split; [now apply Forall_app|].
  now rewrite flat_map_app.
Qed.
(** A text in front can be taken away. *)
Lemma utf8_rest_aux text : forall text2 r, Forall scalar text -> Forall scalar text2 ->
  flat_map encode text ++ r = flat_map encode text2 -> utf8 r.
Proof.
  induction text as [|c text IH]; intros text2 r F F2 EQ; cbn in EQ.
  - exists text2. auto.
  - inversion F as [|? ? S F']; subst. destruct text2 as [|c2 text2].
    + pose proof (encode_length c S). cbn in EQ.
      destruct (encode c); cbn in *; [lia|discriminate].
    + inversion F2 as [|? ? S2 F2']; subst. cbn in EQ. rewrite <- app_assoc in EQ.
      assert (LEN : encode c = encode c2).
      { pose proof (encode_wf c S) as H1. pose proof (encode_wf c2 S2) as H2.
        destruct (encode c) as [|b0 [|b1 [|b2 [|b3 [|? ?]]]]]; try contradiction;
        destruct (encode c2) as [|d0 [|d1 [|d2 [|d3 [|? ?]]]]]; try contradiction; cbn in EQ;
          injection EQ; intros; subst; try reflexivity; exfalso; intuition congruence. }
      rewrite LEN in EQ. apply app_inv_head in EQ. eauto.
Qed.
Lemma utf8_rest a r : utf8 a -> utf8 (a ++ r) -> utf8 r.
Proof. intros (ta & Fa & ->) (tb & Fb & E). exact (utf8_rest_aux _ _ _ Fa Fb E). Qed.

(** Bytes that are text are accepted whole. *)
Lemma v_utf8 l : utf8 l -> valid_up_to l = length l.
Proof. intros (t & F & ->). rewrite <- (app_nil_r (flat_map encode t)) at 1. rewrite v_text by auto. cbn. lia. Qed.

(** Four bytes where no character starts are not the beginning of a text. *)
Lemma v_stuck r z : valid_up_to r = 0 -> utf8 (r ++ z) -> length r <= 3.
Proof.
  intros Z (t & F & EQ). destruct t as [|c t].
  - destruct r; [cbn; lia|discriminate].
  - inversion F as [|? ? S F']; subst. cbn in EQ.
    destruct (Nat.le_gt_cases (length r) 3) as [L|L]; auto. exfalso.
    pose proof (encode_length c S) as LE.
    assert (P : r = encode c ++ skipn (length (encode c)) r).
    { rewrite <- (firstn_skipn (length (encode c)) r) at 1. f_equal.
      assert (Q : firstn (length (encode c)) (r ++ z) = encode c) by (rewrite EQ; apply firstn_length_app).
      rewrite firstn_app in Q. replace (length (encode c) - length r) with 0 in Q by lia.
      cbn in Q. now rewrite app_nil_r in Q. }
    rewrite P, v_encode in Z by auto. lia.
Qed.

(** Where a text is followed by no complete character, [valid_up_to] stops there. *)
Lemma v_zero_iff r : valid_up_to r = 0 <-> (forall c z, scalar c -> r <> encode c ++ z).
Proof.
  split.
  - intros Z c z S ->. rewrite v_encode in Z by auto. pose proof (encode_length c S). lia.
  - intros H. destruct (v_split r) as (t & r' & F & EQ & Z & L & _). destruct t as [|c t].
    + rewrite L. reflexivity.
    + exfalso. inversion F; subst. cbn in H. rewrite <- app_assoc in H. eapply H; eauto.
Qed.
