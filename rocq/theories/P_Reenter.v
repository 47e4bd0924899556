(** * P_Reenter: property C74, code run inside [wake]. *)
From Coq Require Import Lia Bool.
From Verif Require Import M_Reenter S_Reenter.

(** ** What is true of all states *)
Record rinv (s : rstate) : Prop := {
  ri_waits : forall w v, nth_error (waits s) w = Some v -> v <= version s
}.

Lemma nth_snoc (l : list nat) x w v : nth_error (l ++ [x]) w = Some v -> nth_error l w = Some v \/ v = x.
Proof.
  intros Q. destruct (Nat.lt_ge_cases w (length l)) as [G|G].
  - rewrite nth_error_app1 in Q by exact G. auto.
  - rewrite nth_error_app2 in Q by exact G. destruct (w - length l) as [|m]; cbn in Q; [injection Q; auto|destruct m; discriminate].
Qed.

(** The Waits that exist while a send runs: those from before, then those made since at the new version. *)
Definition since (old : nat) (s : rstate) : Prop :=
  old <= length (waits s) /\
  forall w v, nth_error (waits s) w = Some v -> if w <? old then v < version s else v = version s.

Lemma since_wait old s : since old s -> since old (RState (version s) (poisoned s) (wakers s) (waits s ++ [version s])).
Proof.
  intros [L A]. split; cbn [waits version]; [rewrite app_length; cbn; lia|]. intros w v Q.
  destruct (Nat.lt_ge_cases w (length (waits s))) as [G|G].
  - rewrite nth_error_app1 in Q by exact G. exact (A w v Q).
  - rewrite nth_error_app2 in Q by exact G. destruct (w - length (waits s)) as [|m]; cbn in Q; [|destruct m; discriminate].
    injection Q as <-. destruct (Nat.ltb_spec w old); [lia|reflexivity].
Qed.

Definition grown (s : rstate) (cs : list call) : rstate :=
  RState (version s) (poisoned s) (wakers s) (waits s ++ repeat (version s) (made cs)).

Lemma grown_nil s : grown s [] = s.
Proof. destruct s. unfold grown. cbn. now rewrite app_nil_r. Qed.
Lemma grown_wait s cs : grown (RState (version s) (poisoned s) (wakers s) (waits s ++ [version s])) cs = grown s (DoWait :: cs).
Proof. unfold grown. cbn. now rewrite <- app_assoc. Qed.

(** All harmless: they return. *)
Lemma locked_harmless old cs : forall s, since old s -> Forall (harmless old) cs ->
  run_locked cs s = Returned (grown s cs).
Proof.
  induction cs as [|c cs IH]; intros s S H; [now rewrite grown_nil|]. inversion H; subst. destruct c; cbn in *; try contradiction.
  - rewrite IH; [f_equal; apply grown_wait|now apply since_wait|assumption].
  - destruct S as [L A]. destruct (nth_error (waits s) w) as [v|] eqn:E; [|apply nth_error_None in E; lia].
    pose proof (A w v E) as Q. apply Nat.ltb_lt in H2. rewrite H2 in Q. replace (v =? version s) with false by (symmetry; apply Nat.eqb_neq; lia).
    cbn. rewrite IH; auto. now split.
Qed.

Lemma since_grown old cs : forall s, since old s -> since old (grown s cs).
Proof.
  induction cs as [|c cs IH]; intros s S; [now rewrite grown_nil|]. destruct c; try exact (IH s S).
  rewrite <- grown_wait. apply IH. now apply since_wait.
Qed.
Lemma grown_app s a b : grown (grown s a) b = grown s (a ++ b).
Proof. unfold grown, made. cbn. rewrite filter_app, app_length, repeat_app, <- app_assoc. reflexivity. Qed.
Lemma locked_app a : forall s b, run_locked (a ++ b) s =
  match run_locked a s with Returned s' => run_locked b s' | o => o end.
Proof.
  induction a as [|c a IH]; intros s b; [reflexivity|]. destruct c; cbn; auto.
  destruct (nth_error (waits s) w); [|reflexivity]. destruct (negb _); auto.
Qed.
Lemma drain_concat ks : forall s, drain ks s = run_locked (concat ks) s.
Proof.
  induction ks as [|k ks IH]; intros s; [reflexivity|]. cbn. rewrite locked_app. destruct (run_locked k s); auto.
Qed.

(** The first call that is not harmless decides. *)
Lemma locked_blocking old cs c rest s : since old s -> Forall (harmless old) cs ->
  blocking old (length (waits s) + made cs) c -> run_locked (cs ++ c :: rest) s = Stuck.
Proof.
  intros S H B. rewrite locked_app, (locked_harmless old) by assumption. destruct c; cbn in *; try contradiction; [|reflexivity].
  pose proof (since_grown old cs s S) as [L A]. unfold grown in A. cbn [waits version] in A.
  destruct (nth_error (waits s ++ repeat (version s) (made cs)) w) as [v|] eqn:E.
  - pose proof (A w v E) as Q. destruct (Nat.ltb_spec w old); [lia|]. subst. now rewrite Nat.eqb_refl.
  - apply nth_error_None in E. rewrite app_length, repeat_length in E. lia.
Qed.
Lemma locked_unwinding old cs c rest s : since old s -> Forall (harmless old) cs ->
  ~ harmless old c -> ~ blocking old (length (waits s) + made cs) c ->
  run_locked (cs ++ c :: rest) s = Unwound (grown s cs).
Proof.
  intros S H NH NB. rewrite locked_app, (locked_harmless old) by assumption.
  destruct c; cbn in *; try (exfalso; tauto); [|reflexivity].
  destruct (nth_error (waits s ++ repeat (version s) (made cs)) w) as [v|] eqn:E; [|reflexivity].
  exfalso. assert (w < length (waits s ++ repeat (version s) (made cs))) as Q by (apply nth_error_Some; congruence).
  rewrite app_length, repeat_length in Q. lia.
Qed.

Lemma locked_version cs : forall s, match run_locked cs s with
  | Returned s' | Unwound s' => version s' = version s /\ poisoned s' = poisoned s /\ wakers s' = wakers s /\
      ((forall w v, nth_error (waits s) w = Some v -> v <= version s) ->
       forall w v, nth_error (waits s') w = Some v -> v <= version s')
  | Stuck => True end.
Proof.
  induction cs as [|c cs IH]; intros s; [cbn; auto|]. destruct c; cbn.
  - specialize (IH (RState (version s) (poisoned s) (wakers s) (waits s ++ [version s]))).
    destruct (run_locked cs _); auto; cbn in *; destruct IH as (A & B & C & D); repeat split; auto; intros H; apply D;
      intros w v Q; apply nth_snoc in Q as [Q| ->]; eauto.
  - destruct (nth_error (waits s) w) as [v|]; [|auto]. destruct (negb _); [apply IH|exact I].
  - exact I.
  - auto.
Qed.

Lemma send_state s s' : (send s = Returned s' \/ send s = Unwound s') ->
  (forall w v, nth_error (waits s) w = Some v -> v <= version s) ->
  version s' = version s + 1 /\ (poisoned s = true -> poisoned s' = true) /\
  forall w v, nth_error (waits s') w = Some v -> v <= version s'.
Proof.
  unfold send. intros Q H. destruct (poisoned s) eqn:P.
  - destruct Q as [Q|Q]; [discriminate|]. injection Q as <-. cbn. repeat split; auto. intros w v E. apply H in E. lia.
  - rewrite drain_concat in Q. cbn in Q.
    pose proof (locked_version (concat (wakers s)) (RState (version s + 1) false [] (waits s))) as V.
    assert (H' : forall w v, nth_error (waits s) w = Some v -> v <= version s + 1) by (intros w v E; apply H in E; lia).
    destruct (run_locked _ _) as [s2|s2|]; cbn in V; [| |destruct Q; discriminate];
      destruct V as (A & B & C & D); destruct Q as [Q|Q]; try discriminate; injection Q as <-; cbn; (split; [exact A|]);
      (split; [intros; congruence|]); apply D; exact H'.
Qed.

Lemma rinv_reach s : rreach s -> rinv s.
Proof.
  induction 1 as [|s c s' R [I] Q]; constructor.
  - intros w v E. destruct w; discriminate.
  - destruct c; cbn in Q.
    + destruct Q as [Q|Q]; [|discriminate]. injection Q as <-. cbn. intros w v E. apply nth_snoc in E as [E| ->]; eauto.
    + unfold poll in Q. destruct (nth_error (waits s) w) as [v|]; [destruct (negb _); [|destruct (poisoned s)]|];
        cbn in Q; destruct Q as [Q|Q]; try discriminate; injection Q as <-; cbn; exact I.
    + apply send_state in Q; [|exact I]. tauto.
    + destruct Q as [Q|Q]; [discriminate|]. injection Q as <-. exact I.
Qed.

Lemma since_start s : rreach s -> since (length (waits s)) (RState (version s + 1) (poisoned s) [] (waits s)).
Proof.
  intros R. apply rinv_reach in R as [I]. split; cbn [waits version]; [lia|]. intros w v Q.
  assert (w < length (waits s)) as G by (apply nth_error_Some; congruence). apply Nat.ltb_lt in G. rewrite G. apply I in Q. lia.
Qed.

(** ** C74: what a send does is decided by the first call, in the order of registration, that is not harmless. *)
Theorem C74_send_returns s :
  rreach s -> poisoned s = false -> Forall (harmless (length (waits s))) (concat (wakers s)) ->
  send s = Returned (RState (version s + 1) false []
                            (waits s ++ repeat (version s + 1) (made (concat (wakers s))))).
Proof.
  intros R P H. pose proof (since_start s R) as S. unfold send. rewrite P in *. rewrite drain_concat. cbn.
  now rewrite (locked_harmless (length (waits s))).
Qed.

Theorem C74_send_stuck s before c after :
  rreach s -> poisoned s = false -> concat (wakers s) = before ++ c :: after ->
  Forall (harmless (length (waits s))) before ->
  blocking (length (waits s)) (length (waits s) + made before) c ->
  send s = Stuck.
Proof.
  intros R P E H B. pose proof (since_start s R) as S. unfold send. rewrite P in *. rewrite drain_concat. cbn. rewrite E.
  now rewrite (locked_blocking (length (waits s))).
Qed.

Theorem C74_send_unwinds s before c after :
  rreach s -> poisoned s = false -> concat (wakers s) = before ++ c :: after ->
  Forall (harmless (length (waits s))) before -> ~ harmless (length (waits s)) c ->
  ~ blocking (length (waits s)) (length (waits s) + made before) c ->
  exists s', send s = Unwound s' /\ poisoned s' = true /\ version s' = version s + 1 /\ wakers s' = [].
Proof.
  intros R P E H N B. pose proof (since_start s R) as S. unfold send. rewrite P in *. rewrite drain_concat. cbn. rewrite E.
  rewrite (locked_unwinding (length (waits s))) by assumption. cbn. eauto.
Qed.

Lemma harmless_dec old c : {harmless old c} + {~ harmless old c}.
Proof. destruct c; cbn; auto. apply lt_dec. Qed.

Lemma first_bad old cs : Forall (harmless old) cs \/
  exists a c b, cs = a ++ c :: b /\ Forall (harmless old) a /\ ~ harmless old c.
Proof.
  induction cs as [|c cs IH]; [left; constructor|]. destruct (harmless_dec old c) as [H|H].
  - destruct IH as [IH|(a & d & b & -> & A & N)]; [left; now constructor|]. right. exists (c :: a), d, b. repeat split; auto.
  - right. exists [], c, cs. repeat split; auto.
Qed.

(** So a send on a healthy [Notify] returns exactly when all calls of the registered wakers are harmless. *)
Theorem C74_send_returns_iff s :
  rreach s -> poisoned s = false ->
  ((exists s', send s = Returned s') <-> Forall (harmless (length (waits s))) (concat (wakers s))).
Proof.
  intros R P. split; [|intros H; eexists; now apply C74_send_returns]. intros [s' E].
  destruct (first_bad (length (waits s)) (concat (wakers s))) as [H|(a & c & b & Q & H & N)]; [exact H|exfalso].
  assert (X : blocking (length (waits s)) (length (waits s) + made a) c \/ ~ blocking (length (waits s)) (length (waits s) + made a) c)
    by (destruct c; cbn; auto; lia).
  destruct X as [B|B].
  - rewrite (C74_send_stuck s a c b) in E by assumption. discriminate.
  - destruct (C74_send_unwinds s a c b R P Q H N B) as (s2 & E2 & _). congruence.
Qed.

(** ** Refuted: a send returns, whatever the wakers do.  A waker that makes a new Wait and polls it (what a task
    re-arming itself does under an executor that polls inside [wake]) never returns. *)
Theorem C74_send_returns_refuted :
  exists s, rreach s /\ poisoned s = false /\ wakers s = [[DoWait; DoPoll 1 []]] /\ send s = Stuck.
Proof.
  exists (RState 0 false [[DoWait; DoPoll 1 []]] [0]). split; [|repeat split].
  apply (rr_step (RState 0 false [] [0]) (DoPoll 0 [DoWait; DoPoll 1 []])); [|left; reflexivity].
  apply (rr_step rinit DoWait); [|left; reflexivity]. apply rr_init.
Qed.

(** ** A panic inside [wake] poisons the [Notify] for good: in every later state sends panic, polls panic unless the
    Wait was already overtaken; making a Wait still works. *)
Inductive later : rstate -> rstate -> Prop :=
| la_refl s : later s s
| la_step s s1 c s2 : later s s1 ->
    (fst (run_call c s1) = Returned s2 \/ fst (run_call c s1) = Unwound s2) -> later s s2.

Lemma poisoned_stays s s' : rreach s -> poisoned s = true -> later s s' -> rreach s' /\ poisoned s' = true.
Proof.
  intros R P L. induction L as [s|s s1 c s2 L IH Q]; [auto|]. destruct (IH R P) as [R1 P1].
  split; [eapply rr_step; eauto|]. pose proof (rinv_reach _ R1) as [I]. destruct c; cbn in Q.
  - destruct Q as [Q|Q]; [|discriminate]. injection Q as <-. exact P1.
  - unfold poll in Q. destruct (nth_error (waits s1) w) as [v|]; [destruct (negb _); [|rewrite P1 in Q]|];
      cbn in Q; destruct Q as [Q|Q]; try discriminate; injection Q as <-; exact P1.
  - apply send_state in Q; [|exact I]. tauto.
  - destruct Q as [Q|Q]; [discriminate|]. injection Q as <-. exact P1.
Qed.

Theorem C74_poisoned_for_good s s' :
  rreach s -> poisoned s = true -> later s s' ->
  (exists s2, send s' = Unwound s2 /\ version s2 = version s' + 1) /\
  (forall w v k, nth_error (waits s') w = Some v -> v = version s' -> poll w k s' = (Unwound s', None)) /\
  (forall w v k, nth_error (waits s') w = Some v -> v < version s' -> poll w k s' = (Returned s', Some ReadyNow)).
Proof.
  intros R P L. destruct (poisoned_stays s s' R P L) as [R' P']. split; [|split].
  - unfold send. rewrite P'. eexists. split; reflexivity.
  - intros w v k E ->. unfold poll. rewrite E, Nat.eqb_refl, P'. reflexivity.
  - intros w v k E G. unfold poll. rewrite E. replace (v =? version s') with false; [reflexivity|]. symmetry. apply Nat.eqb_neq. lia.
Qed.

(** ** A healthy [Notify] is usable: a poll of a current Wait answers Pending and keeps its waker, behind those there
    already, and changes nothing else; a poll of a Wait that a send has overtaken answers Ready and changes nothing.
    These are the only Waits there are. *)
Theorem C74_usable s w v k :
  rreach s -> poisoned s = false -> nth_error (waits s) w = Some v ->
  (v = version s /\ poll w k s = (Returned (RState (version s) false (wakers s ++ [k]) (waits s)), Some PendingNow))
  \/ (v < version s /\ poll w k s = (Returned s, Some ReadyNow)).
Proof.
  intros R P E. pose proof (ri_waits s (rinv_reach s R) w v E) as L. unfold poll. rewrite E.
  destruct (Nat.eqb_spec v (version s)) as [V|V].
  - left. split; [exact V|]. cbn. now rewrite P.
  - right. split; [lia|reflexivity].
Qed.

(** After a send that returned, every Wait made before it answers Ready and every Wait made in it by a waker answers
    Pending. *)
Theorem C74_after_send s s' w k :
  rreach s -> poisoned s = false -> send s = Returned s' -> w < length (waits s') ->
  snd (poll w k s') = Some (if w <? length (waits s) then ReadyNow else PendingNow).
Proof.
  intros R P E L. assert (H : Forall (harmless (length (waits s))) (concat (wakers s))).
  { apply C74_send_returns_iff; eauto. }
  rewrite (C74_send_returns s R P H) in E. injection E as <-. cbn [waits] in L. unfold poll. cbn [waits version poisoned].
  pose proof (rinv_reach s R) as [I]. destruct (Nat.ltb_spec w (length (waits s))) as [G|G].
  - rewrite nth_error_app1 by exact G. destruct (nth_error (waits s) w) as [v|] eqn:Q; [|apply nth_error_None in Q; lia].
    apply I in Q. replace (v =? version s + 1) with false by (symmetry; apply Nat.eqb_neq; lia). reflexivity.
  - rewrite nth_error_app2 by exact G. rewrite app_length, repeat_length in L.
    rewrite nth_error_repeat by lia. now rewrite Nat.eqb_refl.
Qed.

(** ** Non-vacuity: two wakers, one of which makes a Wait and polls an old one. *)
Example C74_case :
  rreach (RState 0 false [[DoWait; DoPoll 0 []]; []] [0; 0]) /\
  Forall (harmless 2) (concat [[DoWait; DoPoll 0 []]; []]) /\
  send (RState 0 false [[DoWait; DoPoll 0 []]; []] [0; 0]) = Returned (RState 1 false [] [0; 0; 1]).
Proof.
  split; [|split; [repeat constructor|reflexivity]].
  apply (rr_step (RState 0 false [[DoWait; DoPoll 0 []]] [0; 0]) (DoPoll 1 [])); [|left; reflexivity].
  apply (rr_step (RState 0 false [] [0; 0]) (DoPoll 0 [DoWait; DoPoll 0 []])); [|left; reflexivity].
  apply (rr_step (RState 0 false [] [0]) DoWait); [|left; reflexivity].
  apply (rr_step rinit DoWait); [|left; reflexivity]. apply rr_init.
Qed.
Example C74_case_panic :
  rreach (RState 1 true [] [0]) /\ later (RState 1 true [] [0]) (RState 2 true [] [0]) /\
  send (RState 0 false [[DoPanic]; [DoSend]] [0]) = Unwound (RState 1 true [] [0]).
Proof.
  split; [|split; [|reflexivity]].
  - apply (rr_step (RState 0 false [[DoPanic]; [DoSend]] [0]) DoSend); [|right; reflexivity].
    apply (rr_step (RState 0 false [[DoPanic]] [0]) (DoPoll 0 [DoSend])); [|left; reflexivity].
    apply (rr_step (RState 0 false [] [0]) (DoPoll 0 [DoPanic])); [|left; reflexivity].
    apply (rr_step rinit DoWait); [|left; reflexivity]. apply rr_init.
  - eapply la_step with (c := DoSend); [apply la_refl|right; reflexivity].
Qed.

Print Assumptions C74_send_returns.
Print Assumptions C74_send_stuck.
Print Assumptions C74_send_unwinds.
Print Assumptions C74_send_returns_iff.
Print Assumptions C74_send_returns_refuted.
Print Assumptions C74_poisoned_for_good.
Print Assumptions C74_usable.
Print Assumptions C74_after_send.
