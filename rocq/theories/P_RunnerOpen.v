(** * P_RunnerOpen: property C92. *)
From Coq Require Import Lia.
From Verif Require Import S_RunnerOpen L_Runner P_Runner.

Section Theorems.
  Context {T : Type}.
  Variables (modulus : nat) (x0 : @shared T) (b : gbuffer) (q : list (list T)).
  Hypothesis version_small : version x0 < modulus.
  Hypothesis start : ahead (sh_heap x0) (sh_tail x0) b q.

  Let positive : 0 < modulus.
  Proof. lia. Qed.
  Let segs := sreach modulus x0 b.

  Lemma loader_last_look x e x' (h : list (@revent T)) : loader_step modulus x e x' ->
    at_last_look (note e h) = at_last_look h.
  Proof. now destruct 1. Qed.
  Lemma loader_returned x e x' (h : list (@revent T)) : loader_step modulus x e x' ->
    returned (note e h) = returned h.
  Proof. now destruct 1. Qed.
  Lemma at_last_look_in (h h1 : list (@revent T)) e : at_last_look h = Some h1 -> In e h1 -> In e h.
  Proof.
    induction h as [|e0 h IH]; cbn; [discriminate|]. intros L F. destruct e0; auto. injection L as ->. auto.
  Qed.

  (** What holds once the second look has found nothing. *)
  Let found_nothing (h : list (@revent T)) : Prop :=
    exists h1, at_last_look h = Some h1 /\ returned h = q ++ appended h1.
  Let open_at_look (h : list (@revent T)) : Prop :=
    exists h1, at_last_look h = Some h1 /\ returned h = q ++ appended h1 /\ ~ In EDone h1.

  Lemma next_looked s : segs s ->
    (next_waits s -> open_at_look (s_hist s)) /\ (forall v, s_pc s = SDone v -> found_nothing (s_hist s)).
  Proof.
    intros R. induction R as [|s s' R IH St]; [now split|].
    pose proof (sreach_inv modulus _ q positive _ _ _ eq_refl version_small start R) as [[D _] I _ _ _].
    destruct IH as (A & B). unfold next_waits, open_at_look, found_nothing in *.
    destruct St; cbn [s_sh s_iter s_fut s_pc s_hist] in *; split; intros; try discriminate; try contradiction; auto.
    - rewrite (loader_last_look _ _ _ _ H), (loader_returned _ _ _ _ H). auto.
    - rewrite (loader_last_look _ _ _ _ H), (loader_returned _ _ _ _ H). eauto.
    - apply A. discriminate.
    - destruct (iter_none _ _ _ _ _ I H) as (-> & E). exists h. auto.
    - destruct (B _ eq_refl) as (h1 & L & E). exists h1. split; [auto|]. split; [auto|]. intros F.
      pose proof (at_last_look_in _ _ _ L F) as G. apply D in G. congruence.
  Qed.

  (** A [next] future waits only when, as it looked, nothing was left to return
      and the source was not done. *)
  Theorem C92_next_waits s : segs s -> next_waits s ->
    exists h1, at_last_look (s_hist s) = Some h1 /\ returned (s_hist s) = q ++ appended h1 /\ ~ In EDone h1.
  Proof. intros R W. exact (proj1 (next_looked s R) W). Qed.

  (** On a source done from the start it never waits. *)
  Lemma start_kept (h : list (@revent T)) e : In e (start_history x0) -> forall h1, at_last_look (h ++ start_history x0) = Some h1 -> In e h1.
  Proof.
    intros F h1 L. induction h as [|e0 h IH]; cbn in L.
    - unfold start_history in L. destruct (done_flag x0); discriminate.
    - destruct e0; auto. injection L as <-. apply in_or_app. auto.
  Qed.
  Lemma starts s : segs s -> exists h, s_hist s = h ++ start_history x0.
  Proof.
    intros R. induction R as [|s s' R IH St]; [now exists []|]. destruct IH as (g & E).
    destruct St; cbn in *; subst; try (now exists g); try (now eexists (_ :: g)).
    destruct e; cbn; [now eexists (_ :: g)|now exists g].
  Qed.
  Theorem C92_next_done s : segs s -> done_flag x0 = true -> ~ next_waits s.
  Proof.
    intros R D W. destruct (C92_next_waits s R W) as (h1 & L & _ & O). destruct (starts s R) as (g & E).
    rewrite E in L. apply O. apply (start_kept g EDone); [|exact L]. unfold start_history. rewrite D. now left.
  Qed.

  (** ** [advance] *)
  Variable n : nat.
  Let adv := areach modulus x0 b n.

  Lemma loader_first_look x e x' (h : list (@revent T)) : loader_step modulus x e x' ->
    before_first_look (note e h) = before_first_look h.
  Proof. destruct 1; cbn; auto; now destruct (before_first_look h). Qed.

  Let short_at_look (h : list (@revent T)) : Prop :=
    exists h1, at_last_look h = Some h1 /\ before_first_look h = Some h1 /\ length (all_items q h1) < n.
  Let short_and_open (h : list (@revent T)) : Prop :=
    exists h1, at_last_look h = Some h1 /\ before_first_look h = Some h1
      /\ length (all_items q h1) < n /\ ~ In EDone h1.

  Lemma remain_kept s : adv s -> forall m, a_pc s = ACheck m -> a_remain s = 0.
  Proof.
    intros R m P. pose proof (ai_pc _ _ _ _ _ (areach_inv modulus _ q n positive _ _ _ eq_refl version_small start R)) as I.
    rewrite P in I. now destruct I as (_ & Z & _).
  Qed.

  Lemma advance_looked s : adv s ->
    (advance_waits s -> short_and_open (a_hist s)) /\
    (forall m, a_pc s = ACheck m -> m <> 0 -> short_at_look (a_hist s)).
  Proof.
    intros R. induction R as [|s s' R IH St]; [split; [intros W; exfalso; now apply W|discriminate]|].
    pose proof (areach_inv modulus _ q n positive _ _ _ eq_refl version_small start R) as [[D _] _ P _ _].
    destruct IH as (A & B). unfold advance_waits, short_and_open, short_at_look in *.
    destruct St; cbn [a_sh a_buf a_remain a_fut a_pc a_hist] in *; split; intros; try discriminate; try contradiction; auto.
    - rewrite (loader_last_look _ _ _ _ H), (loader_first_look _ _ _ _ H). auto.
    - rewrite (loader_last_look _ _ _ _ H), (loader_first_look _ _ _ _ H). eauto.
    - apply A. discriminate.
    - injection H0 as <-. cbn [adv_end snd] in H1. destruct P as (k & (ss & C & O & E & K) & -> & Q).
      destruct (adv_turn_ok _ _ _ _ C O) as (r & E1 & P). rewrite H in E1. injection E1 as <-.
      destruct P as (ss' & _ & _ & _ & Z). exists h. split; [reflexivity|]. cbn [before_first_look].
      destruct (before_first_look h) as [h0|].
      + destruct Q as (Q & _). lia.
      + split; [reflexivity|]. rewrite E, skipn_length in Z. lia.
    - assert (Z : m <> 0). { destruct P as (_ & P & _). congruence. }
      destruct (B _ eq_refl Z) as (h1 & L & F & S). exists h1. repeat split; auto. intros G.
      pose proof (at_last_look_in _ _ _ L G) as G'. apply D in G'. congruence.
  Qed.

  (** An [advance] future waits only when, as it looked for the first and only
      time, fewer than [n] items were there and the source was not done. *)
  Theorem C92_advance_waits s : adv s -> advance_waits s ->
    exists h1, at_last_look (a_hist s) = Some h1 /\ before_first_look (a_hist s) = Some h1
      /\ length (all_items q h1) < n /\ ~ In EDone h1.
  Proof. intros R W. exact (proj1 (advance_looked s R) W). Qed.

  Lemma adv_starts s : adv s -> exists h, a_hist s = h ++ start_history x0.
  Proof.
    intros R. induction R as [|s s' R IH St]; [now exists []|]. destruct IH as (g & E).
    destruct St; cbn in *; subst; try (now exists g); try (now eexists (_ :: g)).
    destruct e; cbn; [now eexists (_ :: g)|now exists g].
  Qed.
  (** On a source done from the start it never waits; nor when enough items are
      there from the start. *)
  Theorem C92_advance_done s : adv s -> done_flag x0 = true -> ~ advance_waits s.
  Proof.
    intros R D W. destruct (C92_advance_waits s R W) as (h1 & L & _ & _ & O). destruct (adv_starts s R) as (g & E).
    rewrite E in L. apply O. apply (start_kept g EDone); [|exact L]. unfold start_history. rewrite D. now left.
  Qed.
  Theorem C92_advance_enough s : adv s -> n <= length (concat q) -> ~ advance_waits s.
  Proof.
    intros R D W. destruct (C92_advance_waits s R W) as (h1 & _ & _ & L & _). unfold all_items in L.
    rewrite concat_app, app_length in L. lia.
  Qed.
End Theorems.

(** ** Cases *)
Example C92_case_next : exists s : @sstate nat, sreach 16 (fresh [None] 0) buffer_new s
  /\ next_waits s /\ at_last_look (s_hist s) = Some [EWait; ENext; EDrop; ENext].
Proof.
  destruct parked as (s & R & P & F & _ & _ & _ & H). exists s. split; [exact R|]. split.
  - unfold next_waits. rewrite P, F. discriminate.
  - now rewrite H.
Qed.

(** [advance(2)] with one item there waits. *)
Example C92_case_advance : exists s : @astate nat, areach 16 (fresh [None] 0) buffer_new 2 s
  /\ advance_waits s /\ before_first_look (a_hist s) = Some [EWait; ESend; EAppend [7]].
Proof.
  pose proof (ar_init 16 (fresh (@cons (option (list nat * nat)) None nil) 0) buffer_new 2) as R. unfold ainit, start_history, fresh in R. tidy R.
  eapply ar_step in R; [|apply as_loader; eapply (ls_append 16) with (seg := [7]); reflexivity]. tidy R.
  eapply ar_step in R; [|apply as_loader, ls_send]. tidy R.
  eapply ar_step in R; [|apply as_loader, ls_drain]. tidy R.
  eapply ar_step in R; [|apply as_poll]. tidy R.
  eapply ar_step in R; [|apply as_fut_none]. tidy R.
  eapply ar_step in R; [|apply as_wait]. tidy R.
  eapply ar_step in R; [|apply as_turn; reflexivity]. tidy R.
  eapply ar_step in R; [|apply as_last; reflexivity]. tidy R.
  eapply ar_step in R; [|apply as_not_done; [discriminate|reflexivity]]. tidy R.
  eapply ar_step in R; [|apply as_wake]. tidy R.
  eexists. split; [exact R|]. split; [discriminate|reflexivity].
Qed.

Print Assumptions C92_next_waits.
Print Assumptions C92_next_done.
Print Assumptions C92_advance_waits.
Print Assumptions C92_advance_done.
Print Assumptions C92_advance_enough.
