(** * P_LiveFold: iterating on the runner's sequence, property C108; and joins on it
    written out (C82). *)
From Coq Require Import Lia.
From Verif Require Import L_Base L_LiveJoin L_EndToEnd L_GenSeq P_LiveJoin P_LiveJoinEnds P_EndToEnd S_LiveFold L_LiveFold L_LiveOwn P_LiveOwn.

(** [Join] asks for a [RewindSequence] though it never rewinds, so on the runner's
    sequence a join is written as an async function.  It is the same. *)
Theorem C82_join_written {T} (eqb : T -> T -> bool) modulus {O0 E0 O1 E1} (p0 : lparser T O0 E0) (p1 : lparser T O1 E1) x b h r :
  runs eqb modulus (PJoin p0 p1) x b h r <->
  runs eqb modulus (PThen First p0 (fun o0 => PMapErr (PMap p1 (fun o1 => (o0, o1))) Last)) x b h r.
Proof.
  split; intros R; apply runs_inv in R; cbn in R.
  - destruct R as [(h0 & o0 & x0 & b0 & h1 & o1 & x1 & b1 & R0 & R1 & -> & ->)
      |[(e & x0 & b0 & R & ->)|(h0 & o0 & x0 & b0 & h1 & e & x1 & b1 & R0 & R1 & -> & ->)]].
    + eapply run_then; [exact R0|]. apply run_map_err.
      change (runs eqb modulus (PMap p1 (fun o1 => (o0, o1))) x0 b0 h1 (Took ((fun o1 => (o0, o1)) o1) x1 b1)). now apply run_map.
    + now apply run_then_fails.
    + eapply run_then; [exact R0|]. apply run_map_err_fails. now apply run_map_fails.
  - destruct R as [(h0 & o0 & x0 & b0 & h1 & R0 & R1 & ->)|(e & x0 & b0 & R & ->)].
    + apply runs_inv in R1. cbn in R1.
      destruct R1 as [(o & x1 & b1 & R1 & ->)|(e & x1 & b1 & R1 & ->)]; apply runs_inv in R1; cbn in R1;
        destruct R1 as [(o1 & x2 & b2 & R1 & EQ)|(e1 & x2 & b2 & R1 & EQ)]; try discriminate; injection EQ as -> -> ->.
      * eapply run_join; eauto.
      * eapply run_join_last; eauto.
    + now apply run_join_first.
Qed.

Section Folds.
  Context {T : Type} (eqb : T -> T -> bool).
  Hypothesis eq_ok : decides_eq eqb.
  Variable modulus : nat.
  Context {St O E Acc : Type} (it : live_iter T St O E) (f : Acc -> O -> Acc).
  Hypothesis patterns : forall st, well_made (li_next it st).
  (** It starts anywhere in the life of a sequence, of which [q] is ahead. *)
  Variables (st : St) (acc : Acc) (x0 : @shared T) (b : gbuffer) (q : list (list T)).
  Hypothesis version_small : version x0 < modulus.
  Hypothesis start : ahead (sh_heap x0) (sh_tail x0) b q.

  (** A fold that ends well is the fold on all that was there and has come, all
      at once. *)
  Theorem C108_took h a x b' : folds eqb modulus it f st acc x0 b h (Took a x b') ->
    exists n s', (forall fuel, n <= fuel ->
      fold_loop fuel (built_iter eqb it) f st acc (Chunked (q ++ appended h)) = Ret (Ok a (Chunked s'))) /\ same_ahead x b' s'.
  Proof.
    intros F. destruct (unroll_runs eqb it f modulus _ _ _ _ _ _ F) as (n & R). cbn [lift_out] in R.
    assert (B : forall m, n <= m -> exists s', fold_loop m (built_iter eqb it) f st acc (Chunked (q ++ appended h)) = Ret (Ok a (Chunked s')) /\ same_ahead x b' s').
    { intros m L. destruct (C82_took eqb eq_ok modulus _ (unroll_ok it f m patterns st acc) x0 b q version_small start _ _ _ _ (R m L)) as (s' & P & SA).
      pose proof (unroll_built eqb it f m st acc (Chunked (q ++ appended h))) as X. rewrite P in X. eauto. }
    destruct (B n (le_n n)) as (s' & P & SA). exists n, s'. split; [|exact SA].
    clear - P. revert P. generalize (Chunked (q ++ appended h)). generalize st, acc. induction n as [|n IH]; intros st' acc' c P fuel L; [discriminate|].
    destruct fuel as [|fuel]; [lia|]. cbn [fold_loop] in *. destruct (it_next (built_iter eqb it) st' c) as [[st2 [[v|] s|e s]]| | |]; cbn [bind] in *; auto.
    apply IH; [exact P|lia].
  Qed.

  (** One that fails is the fold that fails on what was there and the first of
      what has come; the rest is still there. *)
  Theorem C108_failed h e x b' : folds eqb modulus it f st acc x0 b h (Failed e x b') ->
    exists n add1 add2 s', appended h = add1 ++ add2 /\
      fold_loop n (built_iter eqb it) f st acc (Chunked (q ++ add1)) = Ret (Err e (Chunked s')) /\ same_ahead x b' (s' ++ add2).
  Proof.
    intros F. destruct (unroll_runs eqb it f modulus _ _ _ _ _ _ F) as (n & R). cbn [lift_out] in R.
    destruct (C82_failed_partial eqb eq_ok modulus _ (unroll_ok it f n patterns st acc) x0 b q version_small start _ _ _ _ (R n (le_n n)))
      as (add1 & add2 & s' & EA & P & SA).
    pose proof (unroll_built eqb it f n st acc (Chunked (q ++ add1))) as X. rewrite P in X. exists n, add1, add2, s'. auto.
  Qed.

End Folds.

(** The parsers of the user's own may also succeed on hearing the end. *)
Section Honest.
  Context {T : Type} (eqb : T -> T -> bool).
  Hypothesis eq_ok : decides_eq eqb.
  Variable modulus : nat.
  Context {St O E Acc : Type} (it : live_iter T St O E) (f : Acc -> O -> Acc).
  Hypothesis sincere : forall st, all_honest (li_next it st).
  Variables (st : St) (acc : Acc) (x0 : @shared T) (b : gbuffer) (q : list (list T)).
  Hypothesis version_small : version x0 < modulus.
  Hypothesis start : ahead (sh_heap x0) (sh_tail x0) b q.

  (** None of the primitive parsers that it starts panics. *)
  Theorem C108_no_panic x b' O' (l : @looker T O') s : fold_starts eqb modulus it f st acc x0 b x b' -> honest l ->
    lreach modulus l x b' s ->
    match s with
    | LLook _ _ s | LMiss _ s => s_pc s <> SPanicked
    | LAdvance _ _ a => a_pc a <> APanicked
    end.
  Proof.
    intros F M L. destruct (unroll_starts eqb it f modulus _ _ _ _ _ _ F) as (n & R).
    exact (C82_own_no_panic eqb eq_ok modulus _ (unroll_honest it f n sincere st acc) x0 b q version_small start _ _ _ _ _ R M L).
  Qed.

  (** It never gets stuck: while it has no answer it can call or make a step. *)
  Lemma fold_progress st1 acc1 x1 b1 j k r : fold_counts eqb it modulus f st1 acc1 x1 b1 j k r -> r = AtWork ->
    forall q1, version x1 < modulus -> ahead (sh_heap x1) (sh_tail x1) b1 q1 ->
    exists j' k' r', fold_counts eqb it modulus f st1 acc1 x1 b1 j' k' r' /\ j' + k' = j + k + 1.
  Proof.
    assert (one : forall st' acc' x b' k r', counts eqb modulus _ _ (li_next it st') x b' k r' ->
              exists r2, fold_counts eqb it modulus f st' acc' x b' 1 k r2).
    { intros st' acc' x b' k1 [|[[[v|] st2] x2 b2|[e st2] x2 b2]] C.
      - eexists. now apply fc_work.
      - eexists. replace k1 with (k1 + 0) by lia. eapply fc_more; [exact C|]. apply fc_begin.
      - eexists. eapply fc_stop; exact C.
      - eexists. eapply fc_fails; exact C. }
    induction 1 as [st' acc' x b'|st' acc' x b' k C|st' acc' x b' k e st2 x2 b2 C|st' acc' x b' k st2 x2 b2 C|st' acc' x b' k0 v st2 x2 b2 j k1 r C F IH];
      intros ER q1 V A; try discriminate.
    - destruct (busy_start eqb modulus _ _ (li_next it st') x b') as (r' & C). destruct (one st' acc' x b' 0 r' C) as (r2 & F).
      exists 1, 0, r2. auto.
    - destruct (C82_progress eqb eq_ok modulus _ _ _ x b' k (sincere st') q1 V A C) as (r' & C'). destruct (one st' acc' x b' _ r' C') as (r2 & F).
      exists 1, (k + 1), r2. split; [exact F|lia].
    - destruct (C82_counted eqb modulus _ _ _ _ _ _ _ C) as (h & R).
      destruct (run_placed eqb eq_ok modulus _ _ _ _ _ _ _ R (sincere st') q1 V A) as (V2 & q2 & A2).
      destruct (IH ER q2 V2 A2) as (j' & k' & r' & F' & EQ). exists (S j'), (k0 + k'), r'. split; [|lia]. eapply fc_more; eauto.
  Qed.
  Theorem C108_progress j k : fold_counts eqb it modulus f st acc x0 b j k AtWork ->
    exists j' k' r', fold_counts eqb it modulus f st acc x0 b j' k' r' /\ j' + k' = j + k + 1.
  Proof. intros F. exact (fold_progress _ _ _ _ _ _ _ F eq_refl q version_small start). Qed.

  Hypothesis source_done : done_flag x0 = true.

  (** On a source that is done it answers as on the segments given at once, *)
  Theorem C108_complete h r : folds eqb modulus it f st acc x0 b h r ->
    exists n s', same_ahead (match r with Took _ x _ | Failed _ x _ => x end) (match r with Took _ _ b' | Failed _ _ b' => b' end) s' /\
      fold_loop n (built_iter eqb it) f st acc (Chunked q) =
        Ret (match r with Took a _ _ => Ok a (Chunked s') | Failed e _ _ => Err e (Chunked s') end).
  Proof.
    intros F. destruct (unroll_runs eqb it f modulus _ _ _ _ _ _ F) as (n & R).
    pose proof (C82_own_complete eqb eq_ok modulus _ (unroll_honest it f n sincere st acc) x0 b q version_small start _ _ source_done (R n (le_n n))) as C.
    pose proof (unroll_built eqb it f n st acc (Chunked q)) as X.
    destruct r as [a x b'|e x b']; cbn [lift_out] in C; destruct C as (s' & P & SA); rewrite P in X; exists n, s'; auto.
  Qed.

  (** and there is an answer iff there is one on those. *)
  Theorem C108_ends :
    (exists h r, folds eqb modulus it f st acc x0 b h r) <->
    (exists fuel, fold_loop fuel (built_iter eqb it) f st acc (Chunked q) <> OutOfFuel).
  Proof.
    split.
    - intros (h & r & F). destruct (C108_complete h r F) as (n & s' & _ & P). exists n. now rewrite P.
    - intros (n & P). destruct (C82_own_finishes eqb eq_ok modulus _ _ _ (unroll_honest it f n sincere st acc) x0 b q version_small start source_done) as (h & r & R).
      pose proof (C82_own_complete eqb eq_ok modulus _ (unroll_honest it f n sincere st acc) x0 b q version_small start _ _ source_done R) as C.
      pose proof (unroll_built eqb it f n st acc (Chunked q)) as X.
      pose proof (unroll_back eqb modulus it f n _ _ _ _ _ _ R) as B.
      destruct r as [a x b'|[e|] x b']; [eauto|eauto|]. destruct C as (s' & C & _). rewrite C in X. contradiction.
  Qed.

  (** If [n] rounds are enough on the segments given at once, then it calls
      [parse_next] at most [n] times, and a number of steps that these segments
      give bounds those of its parsers, however the loaders' steps fall between
      them. *)
  Lemma rounds_bounded j k r st1 acc1 x1 b1 : fold_counts eqb it modulus f st1 acc1 x1 b1 j k r ->
    forall n q1, version x1 < modulus -> ahead (sh_heap x1) (sh_tail x1) b1 q1 -> done_flag x1 = true ->
    (exists a s, on eqb (unroll it f n st1 acc1) q1 = Ret (Ok a (Chunked s))) \/
    (exists e s, on eqb (unroll it f n st1 acc1) q1 = Ret (Err (Some e) (Chunked s))) -> j <= n.
  Proof.
    induction 1 as [st' acc' x b'|st' acc' x b' k C|st' acc' x b' k e st2 x2 b2 C|st' acc' x b' k st2 x2 b2 C|st' acc' x b' k0 v st2 x2 b2 j k1 r C F IH];
      intros n q1 V A D H; [lia|destruct n; [|lia]..|destruct n as [|n]]; try (destruct H as [(? & ? & H)|(? & ? & H)]; discriminate).
    apply le_n_S. destruct (C82_counted eqb modulus _ _ _ _ _ _ _ C) as (h & R).
    destruct (run_own eqb eq_ok modulus _ _ _ _ _ _ _ R (sincere st') q1 V A D) as (_ & V2 & D2 & s & P & q2 & A2 & S2).
    apply (IH n q2 V2 A2 D2). unfold on in H |- *. cbn [unroll built closure parse] in H. rewrite P in H. cbn [bind fst snd] in H.
    pose proof (built_same eqb eq_ok _ (unroll_honest it f n sincere st2 (f acc' v)) q2 s S2) as SA.
    destruct H as [(a & s' & H)|(e & s' & H)]; rewrite H in SA;
      destruct (parse (built eqb (unroll it f n st2 (f acc' v))) (Chunked q2)) as [[a2 [s2]|e2 [s2]]| | |]; cbn in SA; try contradiction;
      destruct SA as (-> & _); eauto.
  Qed.
  Theorem C108_bounded n j k r : fold_loop n (built_iter eqb it) f st acc (Chunked q) <> OutOfFuel ->
    fold_counts eqb it modulus f st acc x0 b j k r ->
    j <= n /\ k <= iter_leaves eqb it n st q * (8 * length (sh_heap x0) + 13).
  Proof.
    intros EN F. split.
    - apply (rounds_bounded _ _ _ _ _ _ _ F n q version_small start source_done).
      destruct (C82_own_finishes eqb eq_ok modulus _ _ _ (unroll_honest it f n sincere st acc) x0 b q version_small start source_done) as (h & r' & R).
      pose proof (C82_own_complete eqb eq_ok modulus _ (unroll_honest it f n sincere st acc) x0 b q version_small start _ _ source_done R) as C.
      pose proof (unroll_built eqb it f n st acc (Chunked q)) as X.
      destruct r' as [a x b'|[e|] x b']; destruct C as (s' & C & _).
      + left. exists a, s'. exact C.
      + right. exists e, s'. exact C.
      + rewrite C in X. contradiction.
    - destruct (unroll_counts eqb it f modulus _ _ _ _ _ _ _ F) as (m & C).
      destruct (C (n + m) ltac:(lia)) as (r' & C').
      pose proof (C82_bounded eqb eq_ok modulus _ _ _ x0 b k _ (unroll_honest it f (n + m) sincere st acc) q version_small start source_done C') as B.
      rewrite unroll_leaves, (leaves_enough eqb it f n st acc q EN (n + m)) in B; [exact B|lia].
  Qed.
  (** So it answers: whoever has let it make so many calls and steps has the answer. *)
  Theorem C108_must_finish n j k r : fold_loop n (built_iter eqb it) f st acc (Chunked q) <> OutOfFuel ->
    fold_counts eqb it modulus f st acc x0 b j k r ->
    n + iter_leaves eqb it n st q * (8 * length (sh_heap x0) + 13) <= j + k -> exists a, r = Answered a.
  Proof.
    intros EN F L. destruct r as [|a]; [|eauto]. destruct (C108_progress j k F) as (j' & k' & r' & F' & EQ).
    destruct (C108_bounded n j' k' r' EN F') as (BJ & BK). lia.
  Qed.
End Honest.

(** map_each, map_while, try_map_each, scan and take do on it what they do on
    segments given at once, of which C17 and C18 speak. *)
Theorem C108_pipeline {T} (eqb : T -> T -> bool) {St O E} (it : live_iter T St O E) (c : chunked T) :
  (forall V (g : O -> V) st, it_next (built_iter eqb (LMapEach it g)) st c = map_each_next (built_iter eqb it) g st c) /\
  (forall V (g : O -> option V) st, it_next (built_iter eqb (LMapWhile it g)) st c = map_while_next (built_iter eqb it) g st c) /\
  (forall V E' (PE : ParseError E') (from : E -> E') (g : O -> result V E') st,
     it_next (built_iter eqb (LTryMapEach from it g)) st c = try_map_each_next from (built_iter eqb it) g st c) /\
  (forall V St2 (s0 : St2) (g : St2 -> O -> St2 * V) st, it_next (built_iter eqb (LScan it s0 g)) st c = scan_next (built_iter eqb it) g st c) /\
  (forall n st, it_next (built_iter eqb (LTake it n)) st c = take_next (built_iter eqb it) st c).
Proof.
  split; [|split; [|split; [|split]]].
  - intros V g st. cbn. unfold map_parse, map_each_next. cbn. destruct (parse (built eqb (li_next it st)) c) as [[[v st'] s|[e st'] s]| | |]; reflexivity.
  - intros V g st. cbn. unfold map_parse, map_while_next. cbn. destruct (parse (built eqb (li_next it st)) c) as [[[v st'] s|[e st'] s]| | |]; reflexivity.
  - intros V E' PE from g st. cbn. unfold and_then_parse, try_map_each_next. cbn.
    destruct (parse (built eqb (li_next it st)) c) as [[[[v|] st'] s|[e st'] s]| | |]; try reflexivity. cbn.
    destruct (g v) as [w|e]; [reflexivity|]. now destruct (should_terminate e).
  - intros V St2 s0 g [pst st]. cbn. unfold map_err_parse. cbn. unfold map_parse, scan_next. cbn.
    destruct (parse (built eqb (li_next it pst)) c) as [[[[v|] st'] s|[e st'] s]| | |]; try reflexivity. cbn. now destruct (g st v).
  - intros n [st lft]. cbn. unfold take_next. destruct (lft =? 0); [reflexivity|]. cbn. unfold map_err_parse. cbn. unfold map_parse. cbn.
    destruct (parse (built eqb (li_next it st)) c) as [[[[v|] st'] s|[e st'] s]| | |]; reflexivity.
Qed.

(** From the chunks of a source to the answer, as in C84: with a buffer that loses
    nothing and atoms of one item, the fold is that of what the iterative parser
    gives on the whole text. *)
Section Text.
  Context {T : Type} (eqb : T -> T -> bool).
  Hypothesis eq_ok : decides_eq eqb.
  Variable modulus : nat.
  Context {St O E Acc : Type} (it : live_iter T St O E) (f : Acc -> O -> Acc).
  Hypothesis single : forall st, by_items (li_next it st).
  Variables (chunks ss : list (list T)).
  Hypothesis loaded : commits odd_up chunks ss.
  Variables (st : St) (acc : Acc) (x0 : @shared T) (q late : list (list T)) (h : list (@revent T)).
  Hypothesis version_small : version x0 < modulus.
  Hypothesis start : ahead (sh_heap x0) (sh_tail x0) buffer_new q.
  Hypothesis loading : ss = q ++ appended h ++ late.

  Theorem C108_text a x b : folds eqb modulus it f st acc x0 buffer_new h (Took a x b) ->
    exists vs rest, gives eqb it st (concat chunks) vs (rest ++ concat late) /\ a = fold_left f vs acc /\ left_with x b rest.
  Proof.
    intros F. destruct (unroll_runs eqb it f modulus _ _ _ _ _ _ F) as (n & R). cbn [lift_out] in R.
    destruct (C84_text_partial eqb modulus _ chunks ss eq_ok (unroll_single it f n single st acc) loaded x0 q late h _
                version_small start loading (R n (le_n n))) as (rest & RD & LW).
    pose proof (unroll_reads eqb it f n st acc (concat chunks)) as X. rewrite RD in X. destruct X as (vs & G & ->). eauto.
  Qed.
  Theorem C108_text_failed e x b : folds eqb modulus it f st acc x0 buffer_new h (Failed e x b) ->
    done_flag x0 = true -> late = [] -> exists vs rest, breaks eqb it st (concat chunks) vs e rest /\ left_with x b rest.
  Proof.
    intros F D LA. destruct (unroll_runs eqb it f modulus _ _ _ _ _ _ F) as (n & R). cbn [lift_out] in R.
    destruct (C84_text_partial eqb modulus _ chunks ss eq_ok (unroll_single it f n single st acc) loaded x0 q late h _
                version_small start loading (R n (le_n n)) D LA) as (rest & RD & LW).
    pose proof (unroll_reads eqb it f n st acc (concat chunks)) as X. rewrite RD in X. destruct X as (vs & G). eauto.
  Qed.
End Text.

(** Items up to one that says stop, however many: once the source is done they are
    taken iff the text has them. *)
Lemma until_given {T} (eqb : T -> T -> bool) stop (eq_ok : decides_eq eqb) vs : forall st l st' l',
  given eqb (until eqb stop) st l vs st' l' -> l = vs ++ l' /\ ~ In stop vs.
Proof.
  intros st l st' l' G. induction G as [st l|st l v sta la vs stb lb R G (IH & NI)]; [auto|].
  cbn in R. destruct l as [|y l]; [discriminate|]. injection R as EY _ <-.
  destruct (eqb y stop) eqn:EQ; [discriminate|]. injection EY as ->. split; [cbn; congruence|].
  intros [->|I]; [|contradiction]. assert (eqb stop stop = true) by now apply eq_ok. congruence.
Qed.
Lemma until_gives {T} (eqb : T -> T -> bool) stop (eq_ok : decides_eq eqb) l vs rest :
  gives eqb (until eqb stop) tt l vs rest <-> l = vs ++ stop :: rest /\ ~ In stop vs.
Proof.
  split.
  - intros (st1 & l1 & st2 & G & R). destruct (until_given eqb stop eq_ok vs _ _ _ _ G) as (-> & NI). split; [|exact NI].
    cbn in R. destruct l1 as [|y l1]; [discriminate|]. injection R as EY _ <-.
    destruct (eqb y stop) eqn:EQ; [|discriminate]. apply eq_ok in EQ as ->. reflexivity.
  - intros (-> & NI). exists tt, (stop :: rest), tt. split.
    + induction vs as [|v vs IH]; [constructor|]. cbn [app]. eapply gv_more; [|apply IH; intros I; apply NI; now right].
      cbn. destruct (eqb v stop) eqn:EQ; [|reflexivity]. apply eq_ok in EQ as ->. destruct NI. now left.
    + cbn. assert (eqb stop stop = true) as -> by now apply eq_ok. reflexivity.
Qed.
Lemma snoc_fold {X} (l acc : list X) : fold_left snoc l acc = acc ++ l.
Proof. revert acc. induction l as [|x l IH]; intros acc; cbn; [now rewrite app_nil_r|]. rewrite IH. unfold snoc. now rewrite <- app_assoc. Qed.

Theorem C108_until {T} (eqb : T -> T -> bool) (eq_ok : decides_eq eqb) modulus stop chunks ss x0 :
  commits odd_up chunks ss -> version x0 < modulus -> ahead (sh_heap x0) (sh_tail x0) buffer_new ss -> done_flag x0 = true ->
  forall vs rest, (concat chunks = vs ++ stop :: rest /\ ~ In stop vs) <->
  exists h x b, folds eqb modulus (until eqb stop) snoc tt [] x0 buffer_new h (Took vs x b) /\ left_with x b rest.
Proof.
  intros CM V A D vs rest.
  assert (SA : forall st, by_items (li_next (until eqb stop) st)) by (intros; exact Logic.I).
  assert (NE : forall st, well_made (li_next (until eqb stop) st)) by (intros; exact Logic.I).
  assert (QT : forall n h r, runs eqb modulus (unroll (until eqb stop) snoc n tt []) x0 buffer_new h r -> ss = ss ++ appended h ++ []).
  { intros n h r R. destruct (run_quiet eqb eq_ok modulus _ _ _ _ _ _ _ R (unroll_ok _ _ n NE tt []) ss V A D) as (-> & _). now rewrite !app_nil_r. }
  split.
  - intros TX. apply (until_gives eqb stop eq_ok) in TX.
    destruct (unroll_gives eqb (until eqb stop) snoc tt _ _ _ [] TX) as (n & RD). specialize (RD n (le_n n)).
    rewrite snoc_fold in RD. cbn [app] in RD.
    destruct (C82_finishes eqb eq_ok modulus _ _ _ (unroll_ok (until eqb stop) snoc n NE tt []) x0 buffer_new ss V A D) as (h & r & R).
    pose proof (C84_text_partial eqb modulus _ chunks ss eq_ok (unroll_single _ _ n SA tt []) CM x0 ss [] h r V A (QT n h r R) R) as C.
    pose proof (unroll_back eqb modulus _ _ n _ _ _ _ _ _ R) as B. destruct r as [a x b|e x b].
    + destruct C as (rest' & RD' & LW). rewrite RD in RD'. cbn [concat] in RD'. rewrite app_nil_r in RD'. injection RD' as <- <-. eauto.
    + destruct (C D eq_refl) as (rest' & RD' & _). congruence.
  - intros (h & x & b & F & LW). destruct (unroll_runs eqb _ _ modulus _ _ _ _ _ _ F) as (n & R). specialize (R n (le_n n)).
    destruct (C108_text eqb eq_ok modulus (until eqb stop) snoc SA chunks ss CM tt [] x0 ss [] h V A (QT n h _ R) _ _ _ F)
      as (vs' & rest' & G & EV & LW').
    rewrite snoc_fold in EV. cbn [app] in EV. subst vs'. cbn [concat] in G. rewrite app_nil_r in G.
    assert (rest = rest') as ->; [|now apply (until_gives eqb stop eq_ok)].
    destruct LW as (q1 & A1 & <-), LW' as (q2 & A2 & <-). f_equal. destruct A1 as (s1 & C1 & H1), A2 as (s2 & C2 & H2).
    destruct (chain_unique _ _ _ _ _ _ C1 C2) as (-> & _). destruct s2; destruct H1 as (_ & ->), H2 as (_ & ->); reflexivity.
Qed.

(** ** Cases meeting the hypotheses *)
Example C108_case :
  let ss := [[5]; [6; 0; 7]] in
  let x0 := Shared [Some ([5], 1); Some ([6; 0; 7], 2); None] 2 0 true false 0 false in
  commits odd_up [[5]; [6; 0]; [7]] ss /\ ahead (sh_heap x0) (sh_tail x0) buffer_new ss /\ done_flag x0 = true /\
  fold_loop 3 (built_iter Nat.eqb (until Nat.eqb 0)) snoc tt [] (Chunked ss) <> OutOfFuel /\
  iter_leaves Nat.eqb (until Nat.eqb 0) 3 tt ss = 3 /\
  (exists h x b, folds Nat.eqb 1 (until Nat.eqb 0) snoc tt [] x0 buffer_new h (Took [5; 6] x b) /\ left_with x b [7]) /\
  ~ (exists h x b, folds Nat.eqb 1 (until Nat.eqb 0) snoc tt [] x0 buffer_new h (Took [5] x b) /\ left_with x b [6; 0; 7]).
Proof.
  intros ss x0.
  assert (CM : commits odd_up [[5]; [6; 0]; [7]] ss).
  { unfold commits. eexists _, _. split; [vm_compute; reflexivity|]. eapply chain_node; [reflexivity|]. eapply chain_node; [reflexivity|]. now constructor. }
  assert (A : ahead (sh_heap x0) (sh_tail x0) buffer_new ss).
  { exists ss. split; [|cbn; auto with arith]. eapply chain_node; [reflexivity|]. eapply chain_node; [reflexivity|]. now constructor. }
  assert (V : version x0 < 1) by (cbn; lia).
  split; [exact CM|]. split; [exact A|]. split; [reflexivity|]. split; [vm_compute; discriminate|]. split; [reflexivity|]. split.
  - apply (C108_until Nat.eqb nat_eq_ok 1 0 _ ss x0 CM V A eq_refl). split; [reflexivity|]. cbn. lia.
  - intros X. apply (C108_until Nat.eqb nat_eq_ok 1 0 _ ss x0 CM V A eq_refl) in X. destruct X as (X & _). discriminate.
Qed.
(** A pipeline: the first two items, doubled, summed up. *)
Example C108_case_pipeline :
  fold_loop 5 (built_iter Nat.eqb (LTake (LMapEach (until Nat.eqb 0) (fun n => 2 * n)) 2)) Nat.add (tt, 2) 0 (Chunked [[5]; [6; 4]])
    = Ret (Ok 22 (Chunked [[4]])).
Proof. reflexivity. Qed.
(** A fold that never ends: its iterative parser reads nothing. *)
Example C108_case_endless :
  let it := LI (T := nat) (O := nat) (E := Miss unit) tt (fun _ => PDone (Some 1, tt)) in
  forall fuel, fold_loop fuel (built_iter Nat.eqb it) Nat.add tt 0 (Chunked [[5]]) = OutOfFuel.
Proof. intros it fuel. cut (forall n, fold_loop fuel (built_iter Nat.eqb it) Nat.add tt n (Chunked [[5]]) = OutOfFuel); [auto|]. induction fuel as [|fuel IH]; intros n; [reflexivity|]. cbn. apply IH. Qed.

Print Assumptions C82_join_written.
Print Assumptions C108_took.
Print Assumptions C108_failed.
Print Assumptions C108_no_panic.
Print Assumptions C108_complete.
Print Assumptions C108_ends.
Print Assumptions C108_progress.
Print Assumptions C108_bounded.
Print Assumptions C108_must_finish.
Print Assumptions C108_pipeline.
Print Assumptions C108_text.
Print Assumptions C108_text_failed.
Print Assumptions C108_until.
