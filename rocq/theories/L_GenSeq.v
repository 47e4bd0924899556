(** * L_GenSeq: proofs about the generic sequence. *)
From Coq Require Import Lia.
From Verif Require Export M_GenSeq S_GenSeq L_Base.

Local Arguments Nat.ltb : simpl never.
Local Arguments Nat.leb : simpl never.
Local Arguments Nat.eqb : simpl never.

(** ** Lists *)
Lemma set_spec {X} (l : list X) i x : i < length l -> list_set l i x = firstn i l ++ x :: skipn (S i) l.
Proof.
  revert i. induction l as [|y l IH]; intros [|i] H; cbn in *; try lia; auto. f_equal. apply IH. lia.
Qed.
Lemma set_length {X} (l : list X) i x : length (list_set l i x) = length l.
Proof. revert i. induction l as [|y l IH]; intros [|i]; cbn; auto. Qed.
Lemma set_nth_other {X} (l : list X) i j x : i <> j -> nth_error (list_set l i x) j = nth_error l j.
Proof. revert i j. induction l as [|y l IH]; intros [|i] [|j] H; cbn; auto; try lia. Qed.
Lemma set_nth_same {X} (l : list X) i x : i < length l -> nth_error (list_set l i x) i = Some x.
Proof. revert i. induction l as [|y l IH]; intros [|i] H; cbn in *; auto; try lia. apply IH. lia. Qed.

(** ** The chain *)
Section Chain.
  Context {T : Type}.
  Implicit Types (h : heap T) (ss : list (list T)).

  Lemma chain_tail_none h n ss tail : chain h n ss tail -> nth_error h tail = Some None.
  Proof. induction 1; auto. Qed.

  Lemma chain_in h n ss tail : chain h n ss tail -> n < length h.
  Proof. destruct 1; apply nth_error_Some; congruence. Qed.

  Lemma commit_ok h n ss tail buf : chain h n ss tail ->
    exists h' tail', commit_to h tail buf = Ret (h', tail') /\ chain h' n (ss ++ [buf]) tail'.
  Proof.
    intros C. pose proof (chain_tail_none _ _ _ _ C) as TN.
    unfold commit_to. rewrite TN. eexists _, _. split; [reflexivity|].
    assert (LT : tail < length h) by (apply nth_error_Some; congruence).
    set (h' := list_set h tail (Some (buf, length h)) ++ [None]).
    assert (OTHER : forall m c, nth_error h m = Some (Some c) -> nth_error h' m = Some (Some c)).
    { intros m c Hm. unfold h'. assert (m < length h) by (apply nth_error_Some; congruence).
      rewrite nth_error_app1 by (now rewrite set_length).
      rewrite set_nth_other; auto. congruence. }
    assert (LAST : nth_error h' (length h) = Some None).
    { unfold h'. rewrite nth_error_app2; rewrite set_length; auto. now rewrite Nat.sub_diag. }
    assert (TAIL : nth_error h' tail = Some (Some (buf, length h))).
    { unfold h'. rewrite nth_error_app1 by (now rewrite set_length). now apply set_nth_same. }
    clear TN LT. clearbody h'.
    induction C as [m Hm|m b m' ss tail Hm C IH]; cbn.
    - eapply chain_node; [exact TAIL|]. now constructor.
    - eapply chain_node; [apply OTHER, Hm|]. auto.
  Qed.

  Lemma chain_unique h n ss tail ss' tail' : chain h n ss tail -> chain h n ss' tail' -> ss = ss' /\ tail = tail'.
  Proof.
    intros A. revert ss' tail'. induction A; intros ss' tail' B; inversion B; subst; try congruence; auto.
    assert (m = m0 /\ b = b0) as (<- & <-) by (split; congruence).
    match goal with H : chain h m _ _ |- _ => destruct (IHA _ _ H) as (-> & ->) end. auto.
  Qed.

  (** [o] items of the first segment are gone. *)
  Definition off_ok (o : nat) ss : Prop := match ss with [] => o = 0 | s :: _ => o <= length s end.

  Lemma off_ok_app o ss b : off_ok o ss -> off_ok o (ss ++ [b]).
  Proof. destruct ss; cbn; auto. intros ->. lia. Qed.

  Lemma off_app o ss b : off_ok o ss -> skipn o (concat (ss ++ [b])) = skipn o (concat ss) ++ b.
  Proof.
    intros H. rewrite concat_app. cbn. rewrite app_nil_r, skipn_app.
    assert (L : o <= length (concat ss)) by (destruct ss; cbn in *; rewrite ?app_length; lia).
    replace (o - length (concat ss)) with 0 by lia. reflexivity.
  Qed.

  Lemma adv_turn_ok h a ss tail : chain h (ad_node a) ss tail -> off_ok (ad_offset a) ss ->
    exists r, adv_turn h a = Ret r /\
      match r with
      | inr a' => exists ss', chain h (ad_node a') ss' tail /\ off_ok (ad_offset a') ss'
          /\ skipn (ad_offset a') (concat ss') = skipn (ad_remain a) (skipn (ad_offset a) (concat ss))
          /\ ad_remain a' = ad_remain a - length (skipn (ad_offset a) (concat ss))
      | inl a' => exists s ss', ss = s :: ss' /\ chain h (ad_node a') ss' tail /\ ad_offset a' = 0
          /\ length (skipn (ad_offset a) s) <= ad_remain a
          /\ ad_remain a' = ad_remain a - length (skipn (ad_offset a) s)
      end.
  Proof.
    intros C O. unfold adv_turn, get. inversion C as [? Hn|? b m ss' ? Hn C']; subst; rewrite Hn.
    - eexists. split; [reflexivity|]. exists []. cbn in O. rewrite O. cbn.
      rewrite skipn_nil. repeat split; auto; lia.
    - cbn in O. unfold usub. rewrite (proj2 (Nat.leb_le _ _)) by lia. cbn [bind].
      destruct (Nat.ltb_spec (ad_remain a) (length b - ad_offset a)).
      + eexists. split; [reflexivity|]. exists (b :: ss'). cbn [ad_node ad_offset ad_remain].
        split; [auto|]. split; [cbn; lia|]. split; [now rewrite skipn_add|].
        rewrite skipn_length. cbn [concat]. rewrite app_length. lia.
      + eexists. split; [reflexivity|]. exists b, ss'. cbn. rewrite skipn_length. repeat split; auto; lia.
  Qed.

  Lemma skip_first o s ss n : o <= length s -> length (skipn o s) <= n ->
    skipn n (skipn o (concat (s :: ss))) = skipn (n - length (skipn o s)) (concat ss).
  Proof.
    intros O L. cbn. rewrite skipn_app. replace (o - length s) with 0 by lia. cbn.
    rewrite skipn_app, skipn_all2 by auto. reflexivity.
  Qed.
  Lemma skip_first_len o s ss : o <= length s ->
    length (skipn o (concat (s :: ss))) = length (skipn o s) + length (concat ss).
  Proof.
    intros O. cbn. rewrite skipn_app. replace (o - length s) with 0 by lia. cbn. now rewrite app_length.
  Qed.

  Lemma adv_while_ok h tail a bs h2 tail2 r :
    adv_while h tail a bs h2 tail2 r ->
    forall ss, chain h (ad_node a) ss tail -> off_ok (ad_offset a) ss ->
    exists ss2, chain h2 (head_node (fst r)) ss2 tail2 /\ off_ok (head_offset (fst r)) ss2
      /\ let avail := skipn (ad_offset a) (concat ss) ++ concat bs in
         skipn (head_offset (fst r)) (concat ss2) = skipn (ad_remain a) avail
         /\ snd r = ad_remain a - length avail.
  Proof.
    induction 1 as [h tail a b h1 tail1 bs h2 tail2 r E H IH|h tail a a1 bs h2 tail2 r E H IH|h tail a a1 E];
      intros ss C O.
    - destruct (commit_ok _ _ _ _ b C) as (h' & tail' & E' & C'). rewrite E in E'. injection E' as <- <-.
      destruct (IH _ C' (off_ok_app _ _ b O)) as (ss2 & A1 & A2 & A3). exists ss2. split; [auto|split; [auto|]].
      rewrite off_app in A3 by auto. cbn [concat]. rewrite <- app_assoc in A3. exact A3.
    - destruct (adv_turn_ok _ _ _ _ C O) as (r0 & E0 & P). rewrite E in E0. injection E0 as <-.
      destruct P as (s & ss' & -> & C' & O' & L & R'). cbn in O.
      destruct (IH ss' C') as (ss2 & A1 & A2 & A3 & A4). { rewrite O'. destruct ss'; cbn; lia. }
      exists ss2. split; [auto|split; [auto|]]. cbn zeta.
      rewrite O' in A3, A4. cbn [skipn] in A3, A4. rewrite R' in A3, A4.
      cbn [concat] in *. split.
      + rewrite A3. rewrite (skipn_app (ad_offset a) s). replace (ad_offset a - length s) with 0 by lia.
        cbn [skipn]. rewrite <- app_assoc. rewrite (skipn_app (ad_remain a) (skipn (ad_offset a) s)).
        rewrite (skipn_all2 (n := ad_remain a)) by auto. reflexivity.
      + rewrite A4. rewrite (skipn_app (ad_offset a) s). replace (ad_offset a - length s) with 0 by lia.
        cbn [skipn]. rewrite !app_length. lia.
    - destruct (adv_turn_ok _ _ _ _ C O) as (r0 & E0 & P). rewrite E in E0. injection E0 as <-.
      destruct P as (ss' & C' & O' & A & B). exists ss'. cbn. rewrite app_nil_r. auto.
  Qed.

  Lemma adv_loop_ok h tail ss : forall fuel a, chain h (ad_node a) ss tail -> off_ok (ad_offset a) ss ->
    length ss < fuel -> exists r, adv_loop fuel h a = Ret r /\ adv_while h tail a [] h tail r.
  Proof.
    induction ss as [|s ss IH]; intros [|fuel] a C O F; cbn in F; try lia; cbn.
    - destruct (adv_turn_ok _ _ _ _ C O) as (r & E & P). rewrite E. cbn.
      destruct r as [a'|a']; [destruct P as (? & ? & ? & _); discriminate|].
      eexists. split; [reflexivity|]. now constructor.
    - destruct (adv_turn_ok _ _ _ _ C O) as (r & E & P). rewrite E. cbn.
      destruct r as [a'|a'].
      + destruct P as (s' & ss' & Q & C' & O' & _). injection Q as <- <-.
        destruct (IH fuel a' C') as (r & E2 & W); [rewrite O'; destruct ss; cbn; lia|lia|].
        exists r. split; [auto|]. econstructor; eauto.
      + eexists. split; [reflexivity|]. now constructor.
  Qed.

  (** What an iterator will yield. *)
  Definition queue_of (o : nat) ss : list (list T) :=
    match ss with [] => [] | s :: ss' => skipn o s :: ss' end.

  Lemma queue_concat o ss : off_ok o ss -> concat (queue_of o ss) = skipn o (concat ss).
  Proof.
    destruct ss as [|s ss]; cbn.
    - intros ->. reflexivity.
    - intros O. rewrite skipn_app. replace (o - length s) with 0 by lia. reflexivity.
  Qed.

  Lemma gnext_ok h i ss tail : chain h (it_node i) ss tail -> off_ok (it_offset i) ss ->
    match ss with
    | [] => gnext h i = Ret (None, i)
    | s :: ss' => exists m, gnext h i = Ret (Some (skipn (it_offset i) s), GIter 0 m) /\ chain h m ss' tail
    end.
  Proof.
    intros C O. unfold gnext, get. inversion C as [? Hn|? b m ss' ? Hn C']; subst; rewrite Hn; auto.
    cbn in O. rewrite (proj2 (Nat.leb_le _ _)) by lia. eauto.
  Qed.

  Lemma gcollect_ok h tail ss : forall fuel i, chain h (it_node i) ss tail -> off_ok (it_offset i) ss ->
    length ss < fuel -> gcollect fuel h i = Ret (queue_of (it_offset i) ss).
  Proof.
    induction ss as [|s ss IH]; intros [|fuel] i C O F; cbn in F; try lia; cbn.
    - rewrite (gnext_ok _ _ _ _ C O). reflexivity.
    - destruct (gnext_ok _ _ _ _ C O) as (m & E & C'). rewrite E. cbn.
      rewrite (IH fuel (GIter 0 m)) by (cbn; auto; try lia; destruct ss; cbn; lia).
      cbn. f_equal. destruct ss; reflexivity.
  Qed.

  Lemma iterate_ok cs : forall h tail i ss, chain h (it_node i) ss tail -> off_ok (it_offset i) ss ->
    iterate cs h tail i = Ret (queue_replies (queue_of (it_offset i) ss) cs).
  Proof.
    induction cs as [|[|b] cs IH]; intros h tail i ss C O; cbn; auto.
    - destruct ss as [|s ss]; cbn.
      + rewrite (gnext_ok _ _ _ _ C O). cbn. rewrite (IH _ _ _ _ C O). reflexivity.
      + destruct (gnext_ok _ _ _ _ C O) as (m & E & C'). rewrite E. cbn.
        rewrite (IH h tail (GIter 0 m) ss C') by (destruct ss; cbn; lia). cbn.
        destruct ss; reflexivity.
    - destruct (commit_ok _ _ _ _ b C) as (h' & tail' & E & C'). rewrite E. cbn.
      rewrite (IH _ _ _ _ C' (off_ok_app _ _ b O)). f_equal. f_equal.
      destruct ss; cbn in *; [|reflexivity]. rewrite O. reflexivity.
  Qed.

  (** ** C45 *)
  Definition gwf (st : heap T * nat * gbuffer) (pending : list T) (n : nat) : Prop :=
    let '(h, tail, b) := st in
    exists ss, chain h (head_node b) ss tail /\ off_ok (head_offset b) ss
      /\ pending = skipn (head_offset b) (concat ss) /\ length ss <= n.

  Lemma gwf_start : gwf gstart [] 0.
  Proof. exists []. cbn. split; [now constructor|auto]. Qed.

  Lemma chain_shorter h tail a bs h2 tail2 r : adv_while h tail a bs h2 tail2 r ->
    forall ss ss', chain h (ad_node a) ss tail -> chain h2 (head_node (fst r)) ss' tail2 ->
    length ss' <= length ss + length bs.
  Proof.
    induction 1 as [h tail a b h1 tail1 bs h2 tail2 r E H IH|h tail a a1 bs h2 tail2 r E H IH|h tail a a1 E];
      intros ss ss' C C'.
    - destruct (commit_ok _ _ _ _ b C) as (h' & tail' & E' & C1). rewrite E in E'. injection E' as <- <-.
      specialize (IH _ _ C1 C'). rewrite app_length in IH. cbn in *. lia.
    - unfold adv_turn, get in E. inversion C as [? Hn|? b m ss0 ? Hn C0]; subst; rewrite Hn in E; [discriminate|].
      unfold usub in E. destruct (ad_offset a <=? length b); [|discriminate]. cbn in E.
      destruct (ad_remain a <? length b - ad_offset a); [discriminate|]. injection E as <-.
      specialize (IH _ _ C0 C'). cbn. lia.
    - assert (Q : ad_node a1 = ad_node a).
      { unfold adv_turn, get in E. inversion C as [? Hn|? b m ss0 ? Hn C0]; subst; rewrite Hn in E; [congruence|].
        unfold usub in E. destruct (ad_offset a <=? length b); [|discriminate]. cbn in E.
        destruct (ad_remain a <? length b - ad_offset a); [|discriminate]. now injection E as <-. }
      cbn in C'. rewrite Q in C'. destruct (chain_unique _ _ _ _ _ _ C C') as (-> & _). lia.
  Qed.

  Lemma gperform_ok fuel c st pending n : gwf st pending n -> n < fuel ->
    exists r st' pending', gperform fuel c st = Ret (r, st') /\ answers pending c r pending'
      /\ gwf st' pending' (S n).
  Proof.
    intros W F. destruct st as [[h tail] b]. destruct W as (ss & C & O & P & L).
    destruct c as [buf|k|]; cbn.
    - destruct (commit_ok _ _ _ _ buf C) as (h' & tail' & E & C'). rewrite E. cbn.
      eexists _, _, _. split; [reflexivity|]. split; [reflexivity|].
      exists (ss ++ [buf]). split; [auto|]. split; [now apply off_ok_app|].
      split; [rewrite P; symmetry; now apply off_app|]. rewrite app_length. cbn. lia.
    - destruct (adv_loop_ok h tail ss fuel (adv_begin b k)) as ([b' m] & E & W); cbn; auto; [lia|].
      unfold gadvance. rewrite E. cbn.
      destruct (adv_while_ok _ _ _ _ _ _ _ W ss C O) as (ss2 & C2 & O2 & A1 & A2).
      cbn in A1, A2, C2, O2. rewrite app_nil_r in A1, A2.
      eexists _, _, _. split; [reflexivity|]. rewrite P. split; [split; [exact A2|reflexivity]|].
      exists ss2. split; [auto|split; [auto|split; [now rewrite A1|]]].
      pose proof (chain_shorter _ _ _ _ _ _ _ W ss ss2 C C2) as Q. cbn in Q. lia.
    - rewrite (gcollect_ok h tail ss fuel (gsegments b)) by (cbn; auto; lia). cbn.
      eexists _, _, _. split; [reflexivity|]. split; [split; [|reflexivity]|].
      + rewrite P. now apply queue_concat.
      + exists ss. auto.
  Qed.

  Lemma gperform_all_ok fuel cs : forall st pending n, gwf st pending n -> n + length cs < fuel ->
    exists rs st' pending', gperform_all fuel cs st = Ret (rs, st') /\ answers_all pending cs rs pending'
      /\ gwf st' pending' (n + length cs).
  Proof.
    induction cs as [|c cs IH]; intros st pending n W F; cbn in *.
    - rewrite Nat.add_0_r. eexists _, _, _. split; [reflexivity|]. split; [constructor|auto].
    - destruct (gperform_ok fuel c st pending n W) as (r & st1 & p1 & E & A & W1); [lia|]. rewrite E. cbn.
      destruct (IH st1 p1 (S n) W1) as (rs & st2 & p2 & E2 & A2 & W2); [lia|]. rewrite E2. cbn.
      eexists _, _, _. split; [reflexivity|]. split; [econstructor; eauto|].
      replace (n + S (length cs)) with (S n + length cs) by lia. auto.
  Qed.
End Chain.
