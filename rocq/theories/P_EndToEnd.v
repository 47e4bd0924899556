(** * P_EndToEnd: from the chunks of a source, through the loader, to the answer of
    a parser that runs beside it, property C84. *)
From Coq Require Import Lia.
From Verif Require Import L_Base L_Prim L_LiveJoin L_EndToEnd L_GenSeq P_GenSeq P_LiveJoin S_EndToEnd.

Lemma text_loaded {T} (chunks : list (list T)) grow ss :
  (forall n, n <= grow n) -> commits grow chunks ss -> concat ss = keeps grow 0 0 chunks.
Proof.
  intros grows (rs & l & L & C). destruct (C48_commits_partial chunks grow grows) as (rs' & l' & ss' & L' & C' & _ & K & _).
  rewrite L in L'. injection L' as <- <-. destruct (chain_unique _ _ _ _ _ _ C C') as (-> & _). exact K.
Qed.

Section EndToEnd.
  Context {T : Type} (eqb : T -> T -> bool).
  Hypothesis eq_ok : decides_eq eqb.
  Variable modulus : nat.
  Context {O E : Type} (p : lparser T O E).
  Hypothesis patterns : well_made p.
  (** The segments its loader commits in the end. *)
  Variable ss : list (list T).
  Hypothesis no_cut : uncut eqb p ss.

  (** The parser starts on a new sequence of which [q] is there; while it runs the loader gets
      as far as all but [late]. *)
  Variables (x0 : @shared T) (q late : list (list T)) (h : list (@revent T)).
  Hypothesis version_small : version x0 < modulus.
  Hypothesis start : ahead (sh_heap x0) (sh_tail x0) buffer_new q.
  Hypothesis loading : ss = q ++ appended h ++ late.

  Lemma took_text o x b : runs eqb modulus p x0 buffer_new h (Took o x b) ->
    exists rest, reads eqb p (concat ss) = (ROk o, rest ++ concat late) /\ left_with x b rest.
  Proof.
    intros R. destruct (C82_took eqb eq_ok modulus p patterns x0 _ q version_small start _ _ _ _ R) as (s & P & q' & A & SA).
    destruct (built_extends eqb eq_ok p patterns) as (X & _). unfold on in X. specialize (X _ late _ _ P).
    rewrite <- app_assoc, <- loading in X.
    destruct (built_reads eqb eq_ok p patterns ss no_cut) as (s' & P' & S'). unfold on in P'. rewrite X in P'.
    destruct (reads_suffix eqb p (concat ss)) as (before & B).
    destruct (reads eqb p (concat ss)) as [[o'|e] rest]; cbn [fst snd] in *; [|discriminate].
    injection P' as <- <-. exists (concat s). split; [|exists q'; split; [exact A|exact (concat_same _ _ SA)]].
    f_equal. apply concat_same in S'. rewrite concat_app, cut_concat, B, app_length, Nat.add_sub, skipn_length_app in S'. auto.
  Qed.
  Lemma failed_text e x b : runs eqb modulus p x0 buffer_new h (Failed e x b) ->
    exists seen unseen rest, appended h = seen ++ unseen /\
      reads eqb p (concat (q ++ seen)) = (RErr e, rest) /\ left_with x b (rest ++ concat unseen) /\
      concat ss = concat (q ++ seen) ++ concat (unseen ++ late).
  Proof.
    intros R. destruct (C82_failed_partial eqb eq_ok modulus p patterns x0 _ q version_small start _ _ _ _ R)
      as (seen & unseen & s & EA & P & q' & A & SA).
    assert (SS : ss = (q ++ seen) ++ unseen ++ late) by (rewrite loading, EA, <- !app_assoc; reflexivity).
    assert (U : uncut eqb p (q ++ seen)) by (rewrite SS in no_cut; exact (uncut_prefix eqb eq_ok p patterns _ _ no_cut)).
    destruct (built_reads eqb eq_ok p patterns _ U) as (s' & P' & S'). unfold on in P'. rewrite P in P'.
    destruct (reads_suffix eqb p (concat (q ++ seen))) as (before & B).
    destruct (reads eqb p (concat (q ++ seen))) as [[o'|e'] rest] eqn:RD; cbn [fst snd] in *; [discriminate|].
    injection P' as <- <-. exists seen, unseen, rest. split; [exact EA|]. split; [exact RD|]. split.
    - exists q'. split; [exact A|]. rewrite (concat_same _ _ SA), concat_app. f_equal.
      apply concat_same in S'. rewrite cut_concat, B, app_length, Nat.add_sub, skipn_length_app in S'. exact S'.
    - now rewrite SS, concat_app.
  Qed.

  (** They are those of an IteratorSource. *)
  Variables (chunks : list (list T)) (grow : nat -> nat).
  Hypothesis grows : forall n, n <= grow n.
  Hypothesis loaded : commits grow chunks ss.

  (** A success is the success on the whole text that the loader keeps, and the sequence is left
      where it should be. *)
  Theorem C84_took_partial o x b : runs eqb modulus p x0 buffer_new h (Took o x b) ->
    exists rest, reads eqb p (keeps grow 0 0 chunks) = (ROk o, rest ++ concat late) /\ left_with x b rest.
  Proof. rewrite <- (text_loaded chunks grow ss grows loaded). apply took_text. Qed.

  (** A failure is the failure on an initial part of it, which ends where a segment does. *)
  Theorem C84_failed_partial e x b : runs eqb modulus p x0 buffer_new h (Failed e x b) ->
    exists seen unseen rest, appended h = seen ++ unseen /\
      reads eqb p (concat (q ++ seen)) = (RErr e, rest) /\ left_with x b (rest ++ concat unseen) /\
      keeps grow 0 0 chunks = concat (q ++ seen) ++ concat (unseen ++ late).
  Proof. rewrite <- (text_loaded chunks grow ss grows loaded). apply failed_text. Qed.
End EndToEnd.

(** Once the loader is done there is an answer, and it is that on the text that was kept. *)
Theorem C84_loaded_partial {T} (eqb : T -> T -> bool) modulus {O E} (p : lparser T O E) chunks grow rs (l : loader T (list (list T))) ss x0 :
  decides_eq eqb -> well_made p -> (forall n, n <= grow n) ->
  load_all iterator_source (repeat (LLoad grow) (length chunks + 1)) (loader_new chunks) = Ret (rs, l) ->
  committed l ss -> uncut eqb p ss ->
  sh_heap x0 = ld_heap l -> sh_tail x0 = ld_tail l -> done_flag x0 = true -> version x0 < modulus ->
  (exists h r, runs eqb modulus p x0 buffer_new h r) /\
  forall h r, runs eqb modulus p x0 buffer_new h r ->
  match r with
  | Took o x b => exists rest, reads eqb p (keeps grow 0 0 chunks) = (ROk o, rest) /\ left_with x b rest
  | Failed e x b => exists rest, reads eqb p (keeps grow 0 0 chunks) = (RErr e, rest) /\ left_with x b rest
  end.
Proof.
  intros eq_ok patterns grows L C U HH HT D V.
  assert (A : ahead (sh_heap x0) (sh_tail x0) buffer_new ss).
  { rewrite HH, HT. exists ss. split; [exact C|]. destruct ss; [auto|]. cbn. split; [lia|reflexivity]. }
  assert (CM : commits grow chunks ss) by (exists rs, l; auto).
  pose proof (text_loaded chunks grow ss grows CM) as TX.
  split; [exact (C82_finishes eqb eq_ok modulus _ _ p patterns x0 buffer_new ss V A D)|].
  intros h r R. pose proof (C82_complete eqb eq_ok modulus p patterns x0 buffer_new ss V A h r D R) as CC.
  destruct (built_reads eqb eq_ok p patterns ss U) as (s' & P' & S'). unfold on in P'. rewrite <- TX.
  destruct (reads_suffix eqb p (concat ss)) as (before & B).
  apply concat_same in S'. rewrite cut_concat in S'.
  assert (S2 : concat s' = snd (reads eqb p (concat ss))).
  { rewrite S'. clear - B. revert B. generalize (snd (reads eqb p (concat ss))). intros rest ->.
    now rewrite app_length, Nat.add_sub, skipn_length_app. }
  destruct r as [o x b|e x b]; destruct CC as (s & P & q' & A' & SA); rewrite P in P';
    destruct (reads eqb p (concat ss)) as [[o'|e'] rest]; cbn [fst snd] in *; try discriminate; injection P' as <- <-;
    exists rest; (split; [reflexivity|]); exists q'; (split; [exact A'|]); rewrite (concat_same _ _ SA); exact S2.
Qed.

(** A buffer that grows to the next odd number loses nothing, and a parser whose atoms have one
    item is never cut.  Then a success is the success on the whole text, and so is every answer
    once the loader is done. *)
Theorem C84_text_partial {T} (eqb : T -> T -> bool) modulus {O E} (p : lparser T O E) chunks ss :
  decides_eq eqb -> by_items p -> commits odd_up chunks ss ->
  forall x0 q late h r, version x0 < modulus -> ahead (sh_heap x0) (sh_tail x0) buffer_new q ->
  ss = q ++ appended h ++ late -> runs eqb modulus p x0 buffer_new h r ->
  match r with
  | Took o x b => exists rest, reads eqb p (concat chunks) = (ROk o, rest ++ concat late) /\ left_with x b rest
  | Failed e x b => done_flag x0 = true -> late = [] ->
      exists rest, reads eqb p (concat chunks) = (RErr e, rest) /\ left_with x b rest
  end.
Proof.
  intros eq_ok SA CM x0 q late h r V A LO R. destruct (single_ok eqb p SA) as (NE & UC).
  assert (GR : forall n, n <= odd_up n) by (intros n; unfold odd_up; destruct (Nat.even n); lia).
  destruct r as [o x b|e x b].
  - destruct (C84_took_partial eqb eq_ok modulus p NE ss (UC ss) x0 q late h V A LO chunks odd_up GR CM _ _ _ R) as (rest & RD & LW).
    rewrite keeps_odd in RD. eauto.
  - intros D ->. destruct (C84_failed_partial eqb eq_ok modulus p NE ss (UC ss) x0 q [] h V A LO chunks odd_up GR CM _ _ _ R)
      as (seen & unseen & rest & EA & RD & LW & K).
    destruct (run_quiet eqb eq_ok modulus _ _ _ _ _ _ _ R NE q V A D) as (Q & _). rewrite Q in EA.
    symmetry in EA. apply app_eq_nil in EA as (-> & ->). cbn [app concat] in K, LW. rewrite app_nil_r in K, RD, LW.
    rewrite keeps_odd in K. cbn [concat] in K. rewrite app_nil_r in K. rewrite K. eauto.
Qed.

Lemma nat_eq_ok : decides_eq Nat.eqb.
Proof. intros a b. apply Nat.eqb_eq. Qed.

Lemma count_single {T} n : by_items (@count_items T n).
Proof. induction n; cbn; auto. Qed.
Lemma count_reads {T} (eqb : T -> T -> bool) n : forall l o rest,
  reads eqb (count_items n) l = (ROk o, rest) <-> length o = n /\ l = o ++ rest.
Proof.
  induction n as [|n IH]; intros l o rest; cbn [count_items reads].
  - split.
    + intros H. injection H as <- <-. auto.
    + intros (L & ->). destruct o; [reflexivity|discriminate].
  - destruct l as [|x l].
    + split; [discriminate|]. intros (L & E). destruct o; discriminate.
    + destruct (reads eqb (count_items n) l) as [[o'|e] l'] eqn:R; (split; [intros H|intros (L & H)]).
      * injection H as <- <-. apply IH in R as (L & ->). cbn. auto.
      * destruct o as [|y o]; [discriminate|]. injection H as <- ->. injection L as L.
        assert (X : reads eqb (count_items n) (o ++ rest) = (ROk o, rest)) by (apply IH; auto).
        rewrite X in R. injection R as <- <-. reflexivity.
      * discriminate.
      * destruct o as [|y o]; [discriminate|]. injection H as <- ->. injection L as L.
        assert (X : reads eqb (count_items n) (o ++ rest) = (ROk o, rest)) by (apply IH; auto).
        congruence.
Qed.

(** A format in which a count says how many items follow: whatever was taken is what the text
    has there, however the source is cut and whenever the loader runs; and once the loader is
    done it is taken iff the text has it. *)
Theorem C84_frame modulus chunks ss : commits odd_up chunks ss ->
  forall x0 q late h o x b, version x0 < modulus -> ahead (sh_heap x0) (sh_tail x0) buffer_new q ->
  ss = q ++ appended h ++ late -> runs Nat.eqb modulus frame x0 buffer_new h (Took o x b) ->
  exists rest, concat chunks = length o :: o ++ rest ++ concat late /\ left_with x b rest.
Proof.
  intros CM x0 q late h o x b V A LO R.
  assert (SA : by_items frame) by (cbn; auto using count_single).
  destruct (C84_text_partial Nat.eqb modulus frame chunks ss nat_eq_ok SA CM x0 q late h _ V A LO R) as (rest & RD & LW).
  exists rest. split; [|exact LW]. cbn [frame reads] in RD. destruct (concat chunks) as [|n l]; [discriminate|].
  apply count_reads in RD as (<- & ->). reflexivity.
Qed.
Theorem C84_frame_done modulus chunks ss x0 : commits odd_up chunks ss -> version x0 < modulus ->
  ahead (sh_heap x0) (sh_tail x0) buffer_new ss -> done_flag x0 = true ->
  forall o rest, concat chunks = length o :: o ++ rest <->
  exists h x b, runs Nat.eqb modulus frame x0 buffer_new h (Took o x b) /\ left_with x b rest.
Proof.
  intros CM V A D o rest.
  assert (SA : by_items frame) by (cbn; auto using count_single).
  destruct (single_ok Nat.eqb frame SA) as (NE & UC).
  assert (QT : forall h r, runs Nat.eqb modulus frame x0 buffer_new h r -> ss = ss ++ appended h ++ []).
  { intros h r R. destruct (run_quiet Nat.eqb nat_eq_ok modulus _ _ _ _ _ _ _ R NE ss V A D) as (-> & _). now rewrite !app_nil_r. }
  split.
  - intros TX. destruct (C82_finishes Nat.eqb nat_eq_ok modulus _ _ frame NE x0 buffer_new ss V A D) as (h & r & R).
    pose proof (C84_text_partial Nat.eqb modulus frame chunks ss nat_eq_ok SA CM x0 ss [] h r V A (QT h r R) R) as T.
    assert (X : reads Nat.eqb frame (concat chunks) = (ROk o, rest)).
    { rewrite TX. cbn [frame reads]. now apply count_reads. }
    rewrite X in T. destruct r as [o' x b|e x b].
    + destruct T as (rest' & E & LW). cbn [concat] in E. rewrite app_nil_r in E. injection E as <- <-. eauto.
    + destruct (T D eq_refl) as (rest' & E & _). discriminate.
  - intros (h & x & b & R & LW).
    destruct (C84_frame modulus chunks ss CM x0 ss [] h o x b V A (QT h _ R) R) as (rest' & TX & LW').
    cbn [concat] in TX. rewrite app_nil_r in TX. destruct LW as (q1 & A1 & <-), LW' as (q2 & A2 & <-).
    assert (q1 = q2) as ->; [|exact TX]. destruct A1 as (s1 & C1 & H1), A2 as (s2 & C2 & H2).
    destruct (chain_unique _ _ _ _ _ _ C1 C2) as (-> & _). destruct s2; destruct H1 as (_ & ->), H2 as (_ & ->); reflexivity.
Qed.

(** ** C84 as stated is false, in three ways *)

(** The loader loses an item, *)
Theorem C84_lossy_refuted modulus : 0 < modulus -> exists chunks grow ss x0 h x b,
  (forall n, n <= grow n) /\ commits grow chunks ss /\ ahead (sh_heap x0) (sh_tail x0) buffer_new ss /\ done_flag x0 = true /\
  runs Nat.eqb modulus (PJoin PAny PAny) x0 buffer_new h (Failed (Last (MkMiss tt)) x b) /\
  reads Nat.eqb (PJoin PAny PAny) (concat chunks) = (ROk (1, 2), []).
Proof.
  intros M. set (p := PJoin (@PAny nat) (@PAny nat)).
  set (x0 := Shared [Some ([1], 1); None] 1 0 true false 0 false).
  assert (A : ahead (sh_heap x0) (sh_tail x0) buffer_new [[1]]).
  { exists [[1]]. split; [|cbn; auto with arith]. eapply chain_node; [reflexivity|]. now constructor. }
  assert (NE : well_made p) by (cbn; auto).
  destruct (C82_finishes Nat.eqb nat_eq_ok modulus _ _ p NE x0 buffer_new _ M A eq_refl) as (h & r & R).
  pose proof (C82_complete Nat.eqb nat_eq_ok modulus p NE x0 buffer_new _ M A h r eq_refl R) as C.
  destruct r as [o x b|e x b]; destruct C as (s & P & _); [discriminate|]. injection P as <- _.
  exists [[1; 2]], (fun n => n), [[1]], x0, h, x, b. split; [auto|]. split; [|split; [exact A|split; [reflexivity|split; [exact R|reflexivity]]]].
  unfold commits. eexists _, _. split; [vm_compute; reflexivity|]. eapply chain_node; [reflexivity|]. now constructor.
Qed.

(** the parser is told the end before the last segment, *)
Theorem C84_race_refuted modulus : 0 < modulus -> exists chunks h x b,
  commits odd_up chunks (appended h) /\ done_flag x = true /\
  runs Nat.eqb modulus (PJoin PAny PAny) (fresh [None] 0) buffer_new h (Failed (Last (MkMiss tt)) x b) /\
  reads Nat.eqb (PJoin PAny PAny) (concat chunks) = (ROk (6, 7), []).
Proof.
  intros M. destruct (C82_failed_refuted modulus M) as (h & x & b & R & AP & D & _).
  exists [[6]; [7]], h, x, b. split; [|auto]. rewrite AP. unfold commits. eexists _, _. split; [vm_compute; reflexivity|].
  eapply chain_node; [reflexivity|]. eapply chain_node; [reflexivity|]. now constructor.
Qed.

(** and an atom that is cut leaves its first items. *)
Theorem C84_cut_refuted modulus : 0 < modulus -> exists chunks ss x0 h x b,
  commits odd_up chunks ss /\ ahead (sh_heap x0) (sh_tail x0) buffer_new ss /\ done_flag x0 = true /\
  runs Nat.eqb modulus (PJoin (PAtom [1; 2]) PAny) x0 buffer_new h (Took (tt, 2) x b) /\
  reads Nat.eqb (PJoin (PAtom [1; 2]) PAny) (concat chunks) = (ROk (tt, 3), []).
Proof.
  intros M. set (p := PJoin (PAtom [1; 2]) (@PAny nat)).
  set (x0 := Shared [Some ([1], 1); Some ([2; 3], 2); None] 2 0 true false 0 false).
  assert (A : ahead (sh_heap x0) (sh_tail x0) buffer_new [[1]; [2; 3]]).
  { exists [[1]; [2; 3]]. split; [|cbn; auto with arith]. eapply chain_node; [reflexivity|]. eapply chain_node; [reflexivity|]. now constructor. }
  assert (NE : well_made p) by (cbn; split; [discriminate|auto]).
  destruct (C82_finishes Nat.eqb nat_eq_ok modulus _ _ p NE x0 buffer_new _ M A eq_refl) as (h & r & R).
  pose proof (C82_complete Nat.eqb nat_eq_ok modulus p NE x0 buffer_new _ M A h r eq_refl R) as C.
  destruct r as [o x b|e x b]; destruct C as (s & P & _); [|discriminate]. injection P as <- _.
  exists [[1]; [2; 3]], [[1]; [2; 3]], x0, h, x, b. split; [|split; [exact A|split; [reflexivity|split; [exact R|reflexivity]]]].
  unfold commits. eexists _, _. split; [vm_compute; reflexivity|]. eapply chain_node; [reflexivity|]. eapply chain_node; [reflexivity|]. now constructor.
Qed.

(** ** Cases meeting the hypotheses *)
Example C84_case :
  commits odd_up [[1; 2]; []; [3]] [[1; 2; 3]] /\
  uncut Nat.eqb (PJoin PAny (PAtom [2; 3])) [[1; 2; 3]] /\ ~ uncut Nat.eqb (PJoin PAny (PAtom [2; 3])) [[1; 2]; [3]] /\
  reads Nat.eqb (PJoin PAny (PAtom [2; 3])) [1; 2; 3] = (ROk (1, tt), []).
Proof.
  split; [unfold commits; eexists _, _; split; [vm_compute; reflexivity|]; eapply chain_node; [reflexivity|]; now constructor|].
  split; [|split; [|reflexivity]].
  - split; [exact I|]. cbn. intros o rest R. injection R as <- <-. cbn. lia.
  - intros (_ & U). specialize (U 1 [2; 3] eq_refl). cbn in U.
    assert (3 <= 2); [|lia]. exfalso. assert (2 <= 1); [|lia]. apply U. now exists [].
Qed.

(** A frame of two items, cut within. *)
Example C84_case_frame :
  let ss := [[2]; [5; 6; 7]] in
  let x0 := Shared [Some ([2], 1); Some ([5; 6; 7], 2); None] 2 0 true false 0 false in
  commits odd_up [[2]; [5; 6]; [7]] ss /\ ahead (sh_heap x0) (sh_tail x0) buffer_new ss /\
  (exists h x b, runs Nat.eqb 1 frame x0 buffer_new h (Took [5; 6] x b) /\ left_with x b [7]) /\
  ~ (exists h x b, runs Nat.eqb 1 frame x0 buffer_new h (Took [5] x b) /\ left_with x b [6; 7]).
Proof.
  intros ss x0.
  assert (CM : commits odd_up [[2]; [5; 6]; [7]] ss).
  { unfold commits. eexists _, _. split; [vm_compute; reflexivity|]. eapply chain_node; [reflexivity|]. eapply chain_node; [reflexivity|]. now constructor. }
  assert (A : ahead (sh_heap x0) (sh_tail x0) buffer_new ss).
  { exists ss. split; [|cbn; auto with arith]. eapply chain_node; [reflexivity|]. eapply chain_node; [reflexivity|]. now constructor. }
  assert (V : version x0 < 1) by (cbn; lia).
  split; [exact CM|]. split; [exact A|]. split.
  - now apply (C84_frame_done 1 _ ss x0 CM V A eq_refl).
  - intros X. apply (C84_frame_done 1 _ ss x0 CM V A eq_refl) in X. discriminate.
Qed.

Print Assumptions C84_frame.
Print Assumptions C84_frame_done.
Print Assumptions C84_took_partial.
Print Assumptions C84_failed_partial.
Print Assumptions C84_loaded_partial.
Print Assumptions C84_text_partial.
Print Assumptions C84_lossy_refuted.
Print Assumptions C84_race_refuted.
Print Assumptions C84_cut_refuted.
