(** * P_LiveLook: parsers of the user's own on the runner's sequence, properties C82 and C84. *)
From Coq Require Import Lia.
From Verif Require Import S_EndToEnd S_LiveJoinEnds L_Live L_LiveJoin L_EndToEnd P_LiveJoin P_LiveJoinEnds P_EndToEnd.

Section Line.
  Context {T : Type} (eqb : T -> T -> bool) (stop : T).
  Hypothesis eq_ok : decides_eq eqb.

  Lemma before_stop_some s : forall found, before_stop eqb stop s = Some found <->
    exists rest, s = found ++ stop :: rest /\ ~ In stop found.
  Proof.
    induction s as [|x s IH]; intros found; cbn [before_stop].
    - split; [discriminate|]. intros (rest & E & _). destruct found; discriminate.
    - destruct (eqb x stop) eqn:EQ.
      + apply eq_ok in EQ as ->. split.
        * intros H. injection H as <-. exists s. split; [reflexivity|]. intros [].
        * intros (rest & E & NI). destruct found as [|y found]; [reflexivity|]. injection E as <- _. destruct NI. now left.
      + destruct (before_stop eqb stop s) as [f|]; cbn [option_map].
        * split.
          -- intros H. injection H as <-. destruct (proj1 (IH f) eq_refl) as (rest & -> & NI). exists rest. split; [reflexivity|].
             intros [->|I]; [|now apply NI]. assert (eqb stop stop = true) by now apply eq_ok. congruence.
          -- intros (rest & E & NI). destruct found as [|y found].
             ++ injection E as -> _. assert (eqb stop stop = true) by now apply eq_ok. congruence.
             ++ injection E as <- E. f_equal. f_equal. assert (Some f = Some found) as X; [|now injection X].
                apply IH. exists rest. split; [exact E|]. intros I. apply NI. now right.
        * split; [discriminate|]. intros (rest & E & NI). destruct found as [|y found].
          -- injection E as -> _. assert (eqb stop stop = true) by now apply eq_ok. congruence.
          -- injection E as <- E. assert (None = Some found) as X; [|discriminate].
             apply IH. exists rest. split; [exact E|]. intros I. apply NI. now right.
  Qed.
  Lemma before_stop_app s1 s2 : before_stop eqb stop (s1 ++ s2) =
    match before_stop eqb stop s1 with Some f => Some f | None => option_map (app s1) (before_stop eqb stop s2) end.
  Proof.
    induction s1 as [|x s1 IH]; cbn [app before_stop]; [now destruct (before_stop eqb stop s2)|].
    destruct (eqb x stop); [reflexivity|]. rewrite IH. destruct (before_stop eqb stop s1); [reflexivity|].
    now destruct (before_stop eqb stop s2).
  Qed.

  Lemma line_settle q : forall st, settle (line_looker eqb stop) st q =
    match before_stop eqb stop (concat q) with
    | Some f => inr (VTake (length st + length f + 1) (st ++ f))
    | None => inr VMiss
    end.
  Proof.
    induction q as [|s q IH]; intros st; [reflexivity|]. cbn [settle concat lk_step line_looker].
    rewrite before_stop_app. destruct (before_stop eqb stop s) as [f|]; [reflexivity|].
    change (S_Live.settle (line_looker eqb stop) (st ++ s) q = 
      match option_map (app s) (before_stop eqb stop (concat q)) with
      | Some f => inr (VTake (length st + length f + 1) (st ++ f))
      | None => inr VMiss
      end).
    rewrite IH. destruct (before_stop eqb stop (concat q)); [|reflexivity]. cbn [option_map].
    rewrite !app_length, !app_assoc, !Nat.add_assoc. reflexivity.
  Qed.
  Lemma line_saw ss r : witnessed (line_looker eqb stop) ss r ->
    match r with
    | inl st => st = concat ss
    | inr (VTake n _) => n <= length (concat ss)
    | inr VMiss => True
    end.
  Proof.
    induction 1 as [|ss st s W IH]; [reflexivity|]. cbn [lk_step line_looker]. rewrite concat_app. cbn [concat]. rewrite app_nil_r.
    destruct (before_stop eqb stop s) as [f|] eqn:B; [|congruence]. subst st.
    apply before_stop_some in B as (rest & -> & _). rewrite !app_length. cbn [length]. lia.
  Qed.
  Lemma line_by_items : by_items (line eqb stop).
  Proof.
    cbn [by_items line]. split; [split|split].
    - intros ss n o W. exact (line_saw _ _ W).
    - reflexivity.
    - intros ss st _. cbn. now rewrite app_nil_r.
    - intros q. now rewrite !line_settle, one_each_concat.
  Qed.

  Lemma line_reads l o rest : reads eqb (line eqb stop) l = (ROk o, rest) <-> l = o ++ stop :: rest /\ ~ In stop o.
  Proof.
    cbn [reads line]. change (lk_init (line_looker eqb stop)) with (@nil T). rewrite line_settle, one_each_concat. cbn [length app Nat.add].
    destruct (before_stop eqb stop l) as [f|] eqn:B.
    - apply before_stop_some in B as (r & -> & NI).
      replace (length f + 1) with (length (f ++ [stop])) by (rewrite app_length; reflexivity).
      assert (SK : skipn (length (f ++ [stop])) (f ++ stop :: r) = r).
      { change (f ++ stop :: r) with (f ++ [stop] ++ r). rewrite app_assoc. apply skipn_length_app. }
      rewrite SK. split.
      + intros H. injection H as <- <-. auto.
      + intros (E & NI'). assert (X : before_stop eqb stop (f ++ stop :: r) = Some f) by (apply before_stop_some; eauto).
        assert (Y : before_stop eqb stop (o ++ stop :: rest) = Some o) by (apply before_stop_some; eauto).
        rewrite E, Y in X. injection X as <-. apply app_inv_head in E. now injection E as <-.
    - split; [discriminate|]. intros (-> & NI).
      assert (Y : before_stop eqb stop (o ++ stop :: rest) = Some o) by (apply before_stop_some; eauto). congruence.
  Qed.

  (** However the source is cut and whenever the loader runs, what such a parser takes is what
      the text has before its first [stop]; and once the loader is done it is taken iff the
      text has one. *)
  Theorem C84_line modulus chunks ss : commits odd_up chunks ss ->
    forall x0 q late h o x b, version x0 < modulus -> ahead (sh_heap x0) (sh_tail x0) buffer_new q ->
    ss = q ++ appended h ++ late -> runs eqb modulus (line eqb stop) x0 buffer_new h (Took o x b) ->
    exists rest, concat chunks = o ++ stop :: rest ++ concat late /\ ~ In stop o /\ left_with x b rest.
  Proof.
    intros CM x0 q late h o x b V A LO R.
    destruct (C84_text_partial eqb modulus _ chunks ss eq_ok line_by_items CM x0 q late h _ V A LO R) as (rest & RD & LW).
    exists rest. apply line_reads in RD as (TX & NI). auto.
  Qed.
  Theorem C84_line_done modulus chunks ss x0 : commits odd_up chunks ss -> version x0 < modulus ->
    ahead (sh_heap x0) (sh_tail x0) buffer_new ss -> done_flag x0 = true ->
    forall o rest, concat chunks = o ++ stop :: rest /\ ~ In stop o <->
    exists h x b, runs eqb modulus (line eqb stop) x0 buffer_new h (Took o x b) /\ left_with x b rest.
  Proof.
    intros CM V A D o rest. destruct (single_ok eqb (line eqb stop) line_by_items) as (NE & UC).
    assert (QT : forall h r, runs eqb modulus (line eqb stop) x0 buffer_new h r -> ss = ss ++ appended h ++ []).
    { intros h r R. destruct (run_quiet eqb eq_ok modulus _ _ _ _ _ _ _ R NE ss V A D) as (-> & _). now rewrite !app_nil_r. }
    split.
    - intros TX. destruct (C82_finishes eqb eq_ok modulus _ _ _ NE x0 buffer_new ss V A D) as (h & r & R).
      pose proof (C84_text_partial eqb modulus _ chunks ss eq_ok line_by_items CM x0 ss [] h r V A (QT h r R) R) as C.
      apply line_reads in TX. rewrite TX in C. destruct r as [o' x b|e x b].
      + destruct C as (rest' & E & LW). cbn [concat] in E. rewrite app_nil_r in E. injection E as <- <-. eauto.
      + destruct (C D eq_refl) as (rest' & E & _). discriminate.
    - intros (h & x & b & R & LW).
      destruct (C84_line modulus chunks ss CM x0 ss [] h o x b V A (QT h _ R) R) as (rest' & TX & NI & LW').
      cbn [concat] in TX. rewrite app_nil_r in TX. destruct LW as (q1 & A1 & <-), LW' as (q2 & A2 & <-).
      assert (q1 = q2) as ->; [|auto]. destruct A1 as (s1 & C1 & H1), A2 as (s2 & C2 & H2).
      destruct (chain_unique _ _ _ _ _ _ C1 C2) as (-> & _). destruct s2; destruct H1 as (_ & ->), H2 as (_ & ->); reflexivity.
  Qed.
End Line.

(** ** A case: two lines in three chunks; the first line runs over a segment. *)
Example C84_case_line :
  let ss := [[5]; [6; 0; 7]] in
  let x0 := Shared [Some ([5], 1); Some ([6; 0; 7], 2); None] 2 0 true false 0 false in
  commits odd_up [[5]; [6; 0]; [7]] ss /\ ahead (sh_heap x0) (sh_tail x0) buffer_new ss /\
  (exists h x b, runs Nat.eqb 1 (line Nat.eqb 0) x0 buffer_new h (Took [5; 6] x b) /\ left_with x b [7]) /\
  ~ (exists h x b, runs Nat.eqb 1 (line Nat.eqb 0) x0 buffer_new h (Took [6] x b) /\ left_with x b [7]) /\
  leaves Nat.eqb (PJoin (line Nat.eqb 0) (line Nat.eqb 0)) ss = 2.
Proof.
  intros ss x0.
  assert (CM : commits odd_up [[5]; [6; 0]; [7]] ss).
  { unfold commits. eexists _, _. split; [vm_compute; reflexivity|]. eapply chain_node; [reflexivity|]. eapply chain_node; [reflexivity|]. now constructor. }
  assert (A : ahead (sh_heap x0) (sh_tail x0) buffer_new ss).
  { exists ss. split; [|cbn; auto with arith]. eapply chain_node; [reflexivity|]. eapply chain_node; [reflexivity|]. now constructor. }
  assert (V : version x0 < 1) by (cbn; lia).
  split; [exact CM|]. split; [exact A|]. split; [|split; [|reflexivity]].
  - apply (C84_line_done Nat.eqb 0 nat_eq_ok 1 _ ss x0 CM V A eq_refl). split; [reflexivity|]. cbn. lia.
  - intros X. apply (C84_line_done Nat.eqb 0 nat_eq_ok 1 _ ss x0 CM V A eq_refl) in X. destruct X as (X & _). discriminate.
Qed.

(** The conditions on a parser of the user's own leave some out: one that succeeds with
    what there was when it hears the end, and one to which an empty segment is an end. *)
Example C82_case_refuses :
  let greedy : @looker nat nat := {| lk_state := nat; lk_init := 0; lk_step := fun n answer =>
    match answer with Some s => inl (n + length s) | None => inr (VTake n n) end |} in
  let brittle : @looker nat nat := {| lk_state := unit; lk_init := tt; lk_step := fun _ answer =>
    match answer with Some (x :: _) => inr (VTake 1 x) | _ => inr VMiss end |} in
  ~ well_made (PLook greedy) /\ ~ well_made (PLook brittle).
Proof.
  intros greedy brittle. split; intros (M & S).
  - destruct M as (_ & G). specialize (G 3). discriminate.
  - specialize (S [] tt (witnessed_none brittle)). discriminate.
Qed.

Print Assumptions C84_line.
Print Assumptions C84_line_done.
