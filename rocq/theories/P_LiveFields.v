(** * P_LiveFields: the fields of a text, read on the runner's sequence, property C108. *)
From Coq Require Import Lia.
From Verif Require Import S_EndToEnd S_LiveFold L_Live L_LiveJoin L_LiveOwn L_EndToEnd L_GenSeq L_LiveFold P_Live P_LiveJoin P_EndToEnd P_LiveOwn P_LiveFold.

Lemma maybe_settle {T} (q : list (list T)) : settle maybe_looker tt q =
  inr (match concat q with [] => VTake 0 None | x :: _ => VTake 1 (Some x) end).
Proof. induction q as [|[|x s] q IH]; [reflexivity| |reflexivity]. exact IH. Qed.

Lemma maybe_honest {T} : all_honest (PLook (@maybe_looker T)).
Proof.
  cbn [all_honest]. split; [split; [|split]|].
  - intros ss n o W. remember (inr (VTake n o)) as r eqn:E. revert E.
    destruct W as [|ss st s W]; [discriminate|]. cbn. destruct s as [|x s]; [discriminate|]. intros E. injection E as <- _.
    rewrite concat_app, app_length. cbn. lia.
  - intros st. eexists. reflexivity.
  - intros ss st n o _ E. cbn in E. injection E as <- _. lia.
  - intros ss [] _. reflexivity.
Qed.
Lemma maybe_uncut {T} (eqb : T -> T -> bool) q : uncut eqb (PLook maybe_looker) q.
Proof. cbn [uncut]. intros some rest _. change (lk_init (@maybe_looker T)) with tt. now rewrite !maybe_settle, one_each_concat. Qed.
Lemma maybe_reads {T} (eqb : T -> T -> bool) l : reads eqb (PLook maybe_looker) l =
  match l with [] => (ROk None, []) | x :: l => (ROk (Some x), l) end.
Proof.
  cbn [reads]. change (lk_init (@maybe_looker T)) with tt. rewrite maybe_settle, one_each_concat. destruct l; reflexivity.
Qed.

Section Fields.
  Context {T : Type} (eqb : T -> T -> bool) (sep : T).
  Hypothesis eq_ok : decides_eq eqb.

  Lemma fields_honest st : all_honest (li_next (fields eqb sep) st).
  Proof.
    destruct st; cbn [fields li_next all_honest]; [exact Logic.I|]. split; [apply while_honest|]. intros o.
    split; [apply maybe_honest|]. intros; exact Logic.I.
  Qed.
  Lemma fields_uncut st q : uncut eqb (li_next (fields eqb sep) st) q.
  Proof.
    destruct st; cbn [fields li_next]; [exact Logic.I|].
    split; [apply while_uncut|]. intros o rest _. split; [apply maybe_uncut|]. intros; exact Logic.I.
  Qed.

  Definition plain (v : list T) : Prop := ~ In sep v.
  Lemma fields_next l : exists v rest, l = v ++ rest /\ plain v /\
    match rest with
    | [] => reads eqb (li_next (fields eqb sep) false) l = (ROk (Some v, true), [])
    | y :: rest => y = sep /\ reads eqb (li_next (fields eqb sep) false) l = (ROk (Some v, false), rest)
    end.
  Proof.
    set (w := fun x => negb (eqb x sep)).
    assert (RD : reads eqb (li_next (fields eqb sep) false) l =
      match skipn (length (leading w l)) l with
      | [] => (ROk (Some (leading w l), true), [])
      | _ :: rest => (ROk (Some (leading w l), false), rest)
      end).
    { cbn [fields li_next]. change (reads eqb (PThen ?fr ?p ?k) l) with
        (match reads eqb p l with (ROk o, rest) => reads eqb (k o) rest | (RErr e, rest) => (RErr (fr e), rest) end).
      rewrite while_reads. fold w. generalize (skipn (length (leading w l)) l). intros m.
      change (reads eqb (PThen ?fr ?p ?k) m) with
        (match reads eqb p m with (ROk o, rest) => reads eqb (k o) rest | (RErr e, rest) => (RErr (fr e), rest) end).
      rewrite maybe_reads. destruct m; reflexivity. }
    destruct (proj2 (leading_is w l _ _) (conj eq_refl eq_refl)) as (E & F & N).
    exists (leading w l), (skipn (length (leading w l)) l). split; [exact E|]. split.
    - intros I. apply F in I. unfold w in I. assert (eqb sep sep = true) by now apply eq_ok. rewrite H in I. discriminate.
    - destruct (skipn (length (leading w l)) l) as [|y rest]; [exact RD|]. split; [|exact RD].
      unfold w in N. apply eq_ok. now destruct (eqb y sep).
  Qed.
  Lemma fields_over l : reads eqb (li_next (fields eqb sep) true) l = (ROk (None, true), l).
  Proof. reflexivity. Qed.

  (** What it gives on a plain list. *)
  Lemma fields_given vs : forall st l st' l', given eqb (fields eqb sep) st l vs st' l' -> st' = true ->
    if st then vs = [] /\ l' = l else vs <> [] /\ l' = [] /\ l = joined_by sep vs /\ Forall plain vs.
  Proof.
    intros st l st' l' G E. induction G as [st l|st l v st1 l1 vs st2 l2 R G IH].
    - subst. auto.
    - specialize (IH E). destruct st; [discriminate|]. split; [discriminate|].
      destruct (fields_next l) as (v' & rest & EL & PL & H). destruct rest as [|y rest].
      + rewrite R in H. injection H as -> -> ->. destruct IH as (-> & ->). subst. rewrite app_nil_r. auto.
      + destruct H as (-> & H). rewrite R in H. injection H as -> -> ->. destruct IH as (NV & -> & -> & F).
        split; [reflexivity|]. split; [|auto]. rewrite EL. destruct vs; [contradiction|reflexivity].
  Qed.
  Lemma fields_gives l vs rest : gives eqb (fields eqb sep) false l vs rest <->
    rest = [] /\ vs <> [] /\ l = joined_by sep vs /\ Forall plain vs.
  Proof.
    split.
    - intros (st1 & l1 & st2 & G & R).
      assert (st1 = true) as ->.
      { destruct st1; [reflexivity|]. destruct (fields_next l1) as (v & [|y r] & _ & _ & H); [|destruct H as (_ & H)]; congruence. }
      destruct (fields_given _ _ _ _ _ G eq_refl) as (NV & -> & E & F). injection R as _ <-. auto.
    - intros (-> & NV & -> & F).
      assert (U : forall v1 r1 v2 r2, v1 ++ r1 = v2 ++ r2 -> plain v1 -> plain v2 ->
        match r1 with [] => True | y :: _ => y = sep end -> match r2 with [] => True | y :: _ => y = sep end -> v1 = v2 /\ r1 = r2).
      { induction v1 as [|a v1 IH]; intros r1 [|c v2] r2 E P1 P2 H1 H2; cbn in E.
        - auto.
        - subst r1. subst c. destruct P2. now left.
        - subst r2. subst a. destruct P1. now left.
        - injection E as -> E. destruct (IH r1 v2 r2 E) as (-> & ->); auto; intros I; [apply P1|apply P2]; now right. }
      revert NV F. induction vs as [|v vs IH]; [contradiction|]. intros _ F. apply Forall_cons_iff in F as (PV & F).
      destruct vs as [|v2 vs].
      + exists true, [], true. split; [|reflexivity]. cbn [joined_by].
        destruct (fields_next v) as (v' & rest & E & P' & H).
        destruct (U v [] v' rest) as (<- & <-); auto; [now rewrite app_nil_r|destruct rest; [exact Logic.I|apply H]|].
        eapply gv_more; [exact H|constructor].
      + destruct IH as (st1 & l1 & st2 & G & R); [discriminate|exact F|]. exists st1, l1, st2. split; [|exact R].
        change (joined_by sep (v :: v2 :: vs)) with (v ++ sep :: joined_by sep (v2 :: vs)).
        destruct (fields_next (v ++ sep :: joined_by sep (v2 :: vs))) as (v' & rest & E & P' & H).
        destruct (U v (sep :: joined_by sep (v2 :: vs)) v' rest) as (<- & <-); auto; [destruct rest; [exact Logic.I|apply H]|].
        destruct H as (_ & H). eapply gv_more; [exact H|exact G].
  Qed.
  Lemma fields_breaks l vs e rest : ~ breaks eqb (fields eqb sep) false l vs e rest.
  Proof.
    intros (st1 & l1 & st2 & _ & R). destruct st1; [discriminate|].
    destruct (fields_next l1) as (v & [|y r] & _ & _ & H); [|destruct H as (_ & H)]; congruence.
  Qed.
  Lemma fields_exist (l : list T) : exists vs, vs <> [] /\ l = joined_by sep vs /\ Forall plain vs.
  Proof.
    induction l as [|x l (vs & NV & -> & F)]; [exists [[]]; split; [discriminate|]; split; [reflexivity|constructor; [intros []|constructor]]|].
    destruct vs as [|v vs]; [contradiction|]. apply Forall_cons_iff in F as (PV & F). destruct (eqb x sep) eqn:EQ.
    - apply eq_ok in EQ as ->. exists ([] :: v :: vs). split; [discriminate|]. split; [reflexivity|].
      constructor; [intros []|constructor; auto].
    - exists ((x :: v) :: vs). split; [discriminate|]. split; [destruct vs; reflexivity|]. constructor; [|exact F].
      intros [->|I]; [|contradiction]. assert (eqb sep sep = true) by now apply eq_ok. congruence.
  Qed.

  (** Once the loader is done, the fold ends, never fails, reads all there is, and
      gives exactly the fields of the text, however the source was cut. *)
  Theorem C108_fields modulus chunks ss x0 : commits odd_up chunks ss -> version x0 < modulus ->
    ahead (sh_heap x0) (sh_tail x0) buffer_new ss -> done_flag x0 = true ->
    (exists h vs x b, folds eqb modulus (fields eqb sep) snoc false [] x0 buffer_new h (Took vs x b)) /\
    (forall h e x b, ~ folds eqb modulus (fields eqb sep) snoc false [] x0 buffer_new h (Failed e x b)) /\
    (forall vs, (exists h x b, folds eqb modulus (fields eqb sep) snoc false [] x0 buffer_new h (Took vs x b)) <->
       vs <> [] /\ concat chunks = joined_by sep vs /\ forall v, In v vs -> ~ In sep v) /\
    (forall h vs x b, folds eqb modulus (fields eqb sep) snoc false [] x0 buffer_new h (Took vs x b) -> left_with x b []).
  Proof.
    intros CM V A D.
    assert (GR : forall n, n <= odd_up n) by (intros n; unfold odd_up; destruct (Nat.even n); lia).
    assert (TX : forall n, let p := unroll (fields eqb sep) snoc n false [] in
      (exists h r, runs eqb modulus p x0 buffer_new h r) /\
      forall h r, runs eqb modulus p x0 buffer_new h r ->
      match r with
      | Took o x b => exists rest, reads eqb p (concat chunks) = (ROk o, rest) /\ left_with x b rest
      | Failed e x b => exists rest, reads eqb p (concat chunks) = (RErr e, rest) /\ left_with x b rest
      end).
    { intros n. cbv zeta.
      pose proof (C84_own_loaded_partial eqb modulus (unroll (fields eqb sep) snoc n false []) chunks odd_up ss x0 eq_ok
        (unroll_honest _ _ n fields_honest false []) GR CM (unroll_uncut eqb _ _ n fields_uncut false [] ss) V A D) as X.
      rewrite keeps_odd in X. exact X. }
    assert (TK : forall h vs x b, folds eqb modulus (fields eqb sep) snoc false [] x0 buffer_new h (Took vs x b) ->
      gives eqb (fields eqb sep) false (concat chunks) vs [] /\ left_with x b []).
    { intros h vs x b F. destruct (unroll_runs eqb _ _ modulus _ _ _ _ _ _ F) as (n & R). specialize (R n (le_n n)). cbn [lift_out] in R.
      destruct (proj2 (TX n) _ _ R) as (rest & RD & LW).
      pose proof (unroll_reads eqb (fields eqb sep) snoc n false [] (concat chunks)) as X. rewrite RD in X.
      destruct X as (vs' & G & EV). rewrite snoc_fold in EV. cbn [app] in EV. subst vs'.
      assert (rest = []) as -> by (apply fields_gives in G; apply G). auto. }
    assert (GV : forall vs, gives eqb (fields eqb sep) false (concat chunks) vs [] ->
      exists h x b, folds eqb modulus (fields eqb sep) snoc false [] x0 buffer_new h (Took vs x b)).
    { intros vs G. destruct (unroll_gives eqb (fields eqb sep) snoc _ _ _ _ [] G) as (n & RD). specialize (RD n (le_n n)).
      rewrite snoc_fold in RD. cbn [app] in RD. destruct (TX n) as ((h & r & R) & ALL). specialize (ALL _ _ R).
      pose proof (unroll_back eqb modulus _ _ n _ _ _ _ _ _ R) as B. destruct r as [a x b|e x b]; destruct ALL as (rest & RD' & _).
      - rewrite RD in RD'. injection RD' as <- <-. eauto.
      - congruence. }
    split; [|split; [|split]].
    - destruct (fields_exist (concat chunks)) as (vs & NV & E & F).
      destruct (GV vs) as (h & x & b & FO); [apply fields_gives; auto|]. eauto.
    - intros h e x b F. destruct (unroll_runs eqb _ _ modulus _ _ _ _ _ _ F) as (n & R). specialize (R n (le_n n)). cbn [lift_out] in R.
      destruct (proj2 (TX n) _ _ R) as (rest & RD & _).
      pose proof (unroll_reads eqb (fields eqb sep) snoc n false [] (concat chunks)) as X. rewrite RD in X.
      destruct X as (vs & X). exact (fields_breaks _ _ _ _ X).
    - intros vs. split.
      + intros (h & x & b & F). destruct (TK _ _ _ _ F) as (G & _). apply fields_gives in G as (_ & NV & E & F').
        split; [exact NV|]. split; [exact E|]. now apply Forall_forall.
      + intros (NV & E & F). apply GV. apply fields_gives. split; [reflexivity|]. split; [exact NV|]. split; [exact E|]. now apply Forall_forall.
    - intros h vs x b F. exact (proj2 (TK _ _ _ _ F)).
  Qed.
End Fields.

(** ** A case: two fields over three chunks and a last one that is empty. *)
Example C108_case_fields :
  let ss := [[5]; [6; 0; 7]; [0]] in
  let x0 := Shared [Some ([5], 1); Some ([6; 0; 7], 2); Some ([0], 3); None] 3 0 true false 0 false in
  commits odd_up [[5]; [6; 0]; [7]; [0]] ss /\ ahead (sh_heap x0) (sh_tail x0) buffer_new ss /\
  (exists h x b, folds Nat.eqb 1 (fields Nat.eqb 0) snoc false [] x0 buffer_new h (Took [[5; 6]; [7]; []] x b)) /\
  ~ (exists h x b, folds Nat.eqb 1 (fields Nat.eqb 0) snoc false [] x0 buffer_new h (Took [[5; 6]; [7]] x b)).
Proof.
  intros ss x0.
  assert (CM : commits odd_up [[5]; [6; 0]; [7]; [0]] ss).
  { unfold commits. eexists _, _. split; [vm_compute; reflexivity|].
    eapply chain_node; [reflexivity|]. eapply chain_node; [reflexivity|]. eapply chain_node; [reflexivity|]. now constructor. }
  assert (A : ahead (sh_heap x0) (sh_tail x0) buffer_new ss).
  { exists ss. split; [|cbn; auto with arith]. eapply chain_node; [reflexivity|]. eapply chain_node; [reflexivity|].
    eapply chain_node; [reflexivity|]. now constructor. }
  assert (V : version x0 < 1) by (cbn; lia).
  destruct (C108_fields Nat.eqb 0 nat_eq_ok 1 _ ss x0 CM V A eq_refl) as (_ & _ & W & _).
  split; [exact CM|]. split; [exact A|]. split.
  - apply W. split; [discriminate|]. split; [reflexivity|]. intros v I. cbn in I. intuition subst; cbn in *; lia.
  - intros X. apply W in X. destruct X as (_ & X & _). discriminate.
Qed.

Print Assumptions C108_fields.
