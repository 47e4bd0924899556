(** * P_AdvSafe: the unsafe block of the advance future, property C75. *)
From Coq Require Import Lia.
From Verif Require Import M_AdvSafe S_AdvSafe.

(** Where a Wait may be alive, and where the sequence is still owned. *)
Definition owned (s : afuture) : Prop :=
  match at_ s with
  | Between => local s = false /\ (fut s = true -> sequence s = true)
  | AtFut | AtWait => local s = false /\ sequence s = true
  | AtSet => sequence s = true
  | AtAdvance | AtCheck | AtClear => local s = false /\ sequence s = true
  | AtTake => local s = false /\ fut s = false /\ sequence s = true
  | Dropping fs => local s = false /\ (fut s = true -> sequence s = true /\ fs = declared)
  | Gone => local s = false /\ fut s = false
  | Undefined => False
  end.

Lemma owned_step s s' : owned s -> ustep declared s s' -> owned s'.
Proof.
  intros H St. destruct St; unfold owned in *; cbn in *; try tauto.
  - destruct H as [_ ->]. cbn in *. lia.
  - destruct H as [_ ->]. cbn in *. lia.
  - destruct H as (-> & -> & _). split; [reflexivity|discriminate].
  - split; [tauto|discriminate].
  - destruct H as [Hl H]. split; auto. intros E. destruct (H E) as [_ [=]].
  - destruct H as [Hl H]. split; auto. intros E. destruct (H E) as [_ [=]].
  - destruct H as [Hl H]. split; auto. destruct f; auto. destruct (H eq_refl) as [_ [=]].
Qed.

Lemma owned_reach n s : ureach declared n s -> owned s.
Proof. induction 1; [cbn; split; auto|eapply owned_step; eauto]. Qed.

(** ** C75 *)
(** A Wait is only alive while the future itself still owns the sequence, so
    whatever others do with their handles the Notify is not freed before it. *)
Theorem C75_wait_under_sequence n s : ureach declared n s -> wait_alive s -> sequence s = true.
Proof.
  intros R W. apply owned_reach in R. unfold owned, wait_alive in *. destruct (at_ s); intuition congruence.
Qed.

Theorem C75_never_dangling n s : ureach declared n s -> ~ dangling s /\ at_ s <> Undefined.
Proof.
  intros R. split.
  - intros [W (F & _)]. rewrite (C75_wait_under_sequence n s R W) in F. discriminate.
  - apply owned_reach in R. unfold owned in R. intros E. now rewrite E in R.
Qed.

(** Once the sequence was returned, no Wait is left behind. *)
Theorem C75_returned_clean n s : ureach declared n s -> sequence s = false -> ~ wait_alive s.
Proof. intros R E W. rewrite (C75_wait_under_sequence n s R W) in E. discriminate. Qed.

Definition owned_any (order : list field) (s : afuture) : Prop :=
  match at_ s with
  | Dropping fs => local s = false /\ exists dropped, order = dropped ++ fs /\
      (In FFut dropped -> fut s = false) /\ (fut s = true -> In FSequence dropped \/ sequence s = true)
  | Gone => local s = false /\ (fut s = true -> ~ In FFut order /\ (In FSequence order \/ sequence s = true))
  | _ => owned s
  end.
Lemma owned_any_step order s s' : owned_any order s -> ustep order s s' -> owned_any order s'.
Proof.
  intros H St. destruct St; unfold owned_any, owned in *; cbn in *; try tauto.
  - destruct H as [_ ->]. cbn in *. lia.
  - destruct H as [_ ->]. cbn in *. lia.
  - destruct H as (-> & -> & _). split; [reflexivity|discriminate].
  - split; [tauto|]. exists []. cbn. intuition.
  - destruct H as [Hl (d & E & H1 & H2)]. split; auto. exists (d ++ [FFut]). rewrite <- app_assoc. split; auto.
    split; [auto|discriminate].
  - destruct H as [Hl (d & E & H1 & H2)]. split; auto. exists (d ++ [FSequence]). rewrite <- app_assoc. split; auto.
    split.
    + intros I. apply in_app_or in I. destruct I as [I|[I|[]]]; [auto|discriminate].
    + intros _. left. apply in_or_app. right. now left.
  - destruct H as [Hl (d & E & H1 & H2)]. split; auto. exists (d ++ [FRemain]). rewrite <- app_assoc. split; auto.
    split.
    + intros I. apply in_app_or in I. destruct I as [I|[I|[]]]; [auto|discriminate].
    + intros F. destruct (H2 F); auto. left. apply in_or_app. now left.
  - destruct H as [Hl (d & E & H1 & H2)]. rewrite app_nil_r in E. subst d. split; auto. intros F. split; auto.
    intros I. rewrite (H1 I) in F. discriminate.
Qed.

Lemma drop_run order f l q k n : forall a b, order = a ++ b -> (forall s, s = AFuture f l q k n (Dropping order) ->
  forall m, ureach order m s -> ~ In FFut a -> exists q', ureach order m (AFuture f l q' k n (Dropping b)) /\
    (In FSequence a -> q' = false)).
Proof.
  induction a as [|x a IH] using rev_ind; intros b E s -> m R N.
  - cbn in E. subst b. exists q. split; auto. intros [].
  - rewrite <- app_assoc in E. destruct (IH _ E _ eq_refl m R) as (q' & R' & Hq).
    { intros I. apply N, in_or_app. now left. }
    cbn [app] in R'. destruct x.
    + exfalso. apply N, in_or_app. right. now left.
    + exists false. split; auto. eapply ur_step; [exact R'|constructor].
    + exists q'. split; [eapply ur_step; [exact R'|constructor]|].
      intros I. apply in_app_or in I. destruct I as [I|[I|[]]]; [auto|discriminate].
Qed.

(** "DO NOT CHANGE THE FIELD ORDER": of all orders of the fields, the safe ones
    are those that drop [fut] before [sequence]. *)
Theorem C75_field_order order : In FFut order ->
  ((forall n s, ureach order n s -> ~ dangling s) <-> fut_first order).
Proof.
  intros IF. split.
  - intros Safe a b E. destruct (in_dec (fun x y : field => ltac:(decide equality) : {x = y} + {x <> y}) FFut a) as [I|N]; auto.
    exfalso.
    assert (ureach order 0 (AFuture true false true false 0 Between)) as R1.
    { eapply ur_step; [|apply (us_pending order true false true false 0)].
      eapply ur_step; [|apply us_advance]. eapply ur_step; [|apply (us_set order false true)].
      eapply ur_step; [|apply (us_wait order false false); discriminate]. eapply ur_step; [|apply us_fut_none].
      eapply ur_step; [|apply us_poll]. apply ur_start. }
    assert (ureach order 0 (AFuture true false true false 0 (Dropping order))) as R2 by (eapply ur_step; [exact R1|constructor]).
    assert (order = (a ++ [FSequence]) ++ b) as E' by (rewrite <- app_assoc; exact E).
    destruct (drop_run order true false true false 0 _ _ E' _ eq_refl 0 R2) as (q' & R3 & Hq).
    { intros I. apply in_app_or in I. destruct I as [I|[I|[]]]; [contradiction|discriminate]. }
    assert (q' = false) as -> by (apply Hq, in_or_app; right; now left).
    apply (Safe 0 _ R3). split; [left; reflexivity|repeat split; reflexivity].
  - intros FF n s R. assert (owned_any order s) as H.
    { induction R; [cbn; split; auto|eapply owned_any_step; eauto]. }
    intros [W (F1 & F2 & F3)]. unfold owned_any, owned, wait_alive in *. destruct (at_ s) eqn:Ea; try (intuition congruence).
    destruct H as [Hl (d & E & H1 & H2)]. destruct W as [W|W]; [|congruence].
    destruct (H2 W) as [I|I]; [|congruence].
    apply in_split in I. destruct I as (x & y & ->). rewrite <- app_assoc in E. cbn [app] in E.
    assert (In FFut x) as Ix by (eapply FF; exact E).
    rewrite H1 in W by (apply in_or_app; now left). discriminate.
Qed.

(** A Wait was stored, the future is dropped half done, and a clone lives on; and
    a finished one whose sequence the caller drops. *)
Example C75_case_dropped : ureach declared 0 (AFuture false false false false 0 Gone).
Proof.
  eapply ur_step; [|apply us_gone]. eapply ur_step; [|apply us_drop_remain].
  eapply ur_step; [|apply (us_drop_sequence declared false false true)]. eapply ur_step; [|apply (us_drop_fut declared true)].
  eapply ur_step; [|apply us_drop]. eapply ur_step; [|apply us_advance_panic].
  eapply ur_step; [|apply (us_set declared false true)]. eapply ur_step; [|apply (us_wait declared false false); discriminate].
  eapply ur_step; [|apply us_fut_none]. eapply ur_step; [|apply us_poll]. apply ur_start.
Qed.
Example C75_case_waits : ureach declared 1 (AFuture true false true false 0 AtFut).
Proof.
  eapply ur_step; [|apply us_poll]. eapply ur_step; [|apply us_release]. eapply ur_step; [|apply us_pending].
  eapply ur_step; [|apply us_advance]. eapply ur_step; [|apply (us_set declared false true)].
  eapply ur_step; [|apply (us_wait declared false false); discriminate].
  eapply ur_step; [|apply us_fut_none]. eapply ur_step; [|apply us_poll]. apply ur_start.
Qed.
Example C75_case_order : ~ fut_first [FSequence; FFut; FRemain] /\ fut_first declared.
Proof.
  split.
  - intros H. exact (H [] [FFut; FRemain] eq_refl).
  - intros [|x [|y [|z a]]] b E; try discriminate; injection E as <- E; try discriminate; cbn; auto.
Qed.

Print Assumptions C75_wait_under_sequence.
Print Assumptions C75_never_dangling.
Print Assumptions C75_returned_clean.
Print Assumptions C75_field_order.
