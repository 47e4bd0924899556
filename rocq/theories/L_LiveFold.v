(** * L_LiveFold: a fold that has ended is an async function of so many rounds. *)
From Coq Require Import Lia.
From Verif Require Import L_Base L_LiveJoin L_EndToEnd P_LiveJoin P_LiveJoinEnds S_LiveFold L_LiveOwn.

Section Unroll.
  Context {T : Type} (eqb : T -> T -> bool).
  Context {St O E Acc : Type} (it : live_iter T St O E) (f : Acc -> O -> Acc).

  Fixpoint unroll (n : nat) (st : St) (acc : Acc) : lparser T Acc (option E) :=
    match n with
    | 0 => PFail None
    | S n => PThen (fun e => Some (fst e)) (li_next it st)
               (fun r => match fst r with Some v => unroll n (snd r) (f acc v) | None => PDone acc end)
    end.

  Definition lift_out (r : @outcome T Acc E) : @outcome T Acc (option E) :=
    match r with Took a x b => Took a x b | Failed e x b => Failed (Some e) x b end.

  Lemma unroll_runs modulus st acc x b h r : folds eqb modulus it f st acc x b h r ->
    exists n, forall m, n <= m -> runs eqb modulus (unroll m st acc) x b h (lift_out r).
  Proof.
    induction 1 as [st acc x b h0 v st' x0 b0 h1 r R F (n & IH)|st acc x b h st' x0 b0 R|st acc x b h e st' x0 b0 R].
    - exists (S n). intros [|m] L; [lia|]. cbn [unroll]. eapply run_then; [exact R|]. cbn [fst snd]. apply IH. lia.
    - exists 1. intros [|m] L; [lia|]. cbn [unroll]. change h with ([] ++ h). eapply run_then; [exact R|]. constructor.
    - exists 1. intros [|m] L; [lia|]. cbn [unroll lift_out]. change (Some e) with ((fun e : E * St => Some (fst e)) (e, st')).
      now apply run_then_fails.
  Qed.

  Lemma unroll_starts modulus st acc x b x' b' : fold_starts eqb modulus it f st acc x b x' b' ->
    exists n, starts eqb modulus (unroll n st acc) x b x' b'.
  Proof.
    induction 1 as [st acc x b x' b' R|st acc x b h v st' x0 b0 x' b' R F (n & IH)].
    - exists 1. cbn [unroll]. now apply st_then.
    - exists (S n). cbn [unroll]. eapply st_then_on; [exact R|exact IH].
  Qed.

  Lemma unroll_built n : forall st acc s,
    match parse (built eqb (unroll n st acc)) s with
    | Ret (Ok a s') => fold_loop n (built_iter eqb it) f st acc s = Ret (Ok a s')
    | Ret (Err (Some e) s') => fold_loop n (built_iter eqb it) f st acc s = Ret (Err e s')
    | Ret (Err None _) => fold_loop n (built_iter eqb it) f st acc s = OutOfFuel
    | _ => True
    end.
  Proof.
    induction n as [|n IH]; intros st acc s; [reflexivity|].
    cbn [unroll built closure parse fold_loop]. unfold built_iter at 1 3 5. cbn [it_next].
    destruct (parse (built eqb (li_next it st)) s) as [r| | |]; cbn [bind]; auto.
    destruct r as [[v st'] s'|[e st'] s']; cbn [fst snd].
    - destruct v as [v|]; cbn; [apply IH|reflexivity].
    - reflexivity.
  Qed.

  Lemma unroll_ok n : (forall st, well_made (li_next it st)) -> forall st acc, well_made (unroll n st acc).
  Proof.
    intros NE. induction n as [|n IH]; intros st acc; cbn; [exact Logic.I|]. split; [apply NE|].
    intros [[v|] st']; cbn; auto.
  Qed.
  Lemma unroll_honest n : (forall st, all_honest (li_next it st)) -> forall st acc, all_honest (unroll n st acc).
  Proof.
    intros NE. induction n as [|n IH]; intros st acc; cbn; [exact Logic.I|]. split; [apply NE|].
    intros [[v|] st']; cbn; auto.
  Qed.
  Lemma unroll_uncut n : (forall st q, uncut eqb (li_next it st) q) -> forall st acc q, uncut eqb (unroll n st acc) q.
  Proof.
    intros NE. induction n as [|n IH]; intros st acc q; cbn; [exact Logic.I|]. split; [apply NE|].
    intros [[v|] st'] rest _; cbn; auto.
  Qed.
  Lemma unroll_single n : (forall st, by_items (li_next it st)) -> forall st acc, by_items (unroll n st acc).
  Proof.
    intros NE. induction n as [|n IH]; intros st acc; cbn; [exact Logic.I|]. split; [apply NE|].
    intros [[v|] st']; cbn; auto.
  Qed.

  Lemma unroll_reads n : forall st acc l,
    match reads eqb (unroll n st acc) l with
    | (ROk a, rest) => exists vs, gives eqb it st l vs rest /\ a = fold_left f vs acc
    | (RErr (Some e), rest) => exists vs, breaks eqb it st l vs e rest
    | (RErr None, _) => True
    end.
  Proof.
    induction n as [|n IH]; intros st acc l; [exact Logic.I|].
    cbn [unroll reads]. destruct (reads eqb (li_next it st) l) as [[[v st']|[e st']] l'] eqn:R; cbn [fst snd].
    - destruct v as [v|].
      + specialize (IH st' (f acc v) l'). destruct (reads eqb (unroll n st' (f acc v)) l') as [[a|[e|]] rest].
        * destruct IH as (vs & (st1 & l1 & st2 & G & L) & ->). exists (v :: vs). split; [|reflexivity].
          exists st1, l1, st2. split; [|exact L]. econstructor; eauto.
        * destruct IH as (vs & (st1 & l1 & st2 & G & L)). exists (v :: vs). exists st1, l1, st2. split; [|exact L]. econstructor; eauto.
        * exact Logic.I.
      + cbn. exists []. split; [|reflexivity]. exists st, l, st'. split; [constructor|exact R].
    - exists []. exists st, l, st'. split; [constructor|exact R].
  Qed.

  Lemma unroll_gives st l vs rest acc : gives eqb it st l vs rest ->
    exists n, forall m, n <= m -> reads eqb (unroll m st acc) l = (ROk (fold_left f vs acc), rest).
  Proof.
    intros (st1 & l1 & st2 & G & L). revert acc. induction G as [st l|st l v sta la vs stb lb R G IH]; intros acc.
    - exists 1. intros [|m] Lm; [lia|]. cbn [unroll reads]. rewrite L. reflexivity.
    - destruct (IH L (f acc v)) as (n & IHn). exists (S n). intros [|m] Lm; [lia|]. cbn [unroll reads]. rewrite R. cbn [fst snd].
      apply IHn. lia.
  Qed.

  Lemma unroll_counts modulus st acc x b j k r : fold_counts eqb it modulus f st acc x b j k r ->
    exists n, forall m, n <= m -> exists r', counts eqb modulus _ _ (unroll m st acc) x b k r'.
  Proof.
    induction 1 as [st acc x b|st acc x b k C|st acc x b k e st' x0 b0 C|st acc x b k st' x0 b0 C|st acc x b k0 v st' x0 b0 j k1 r C F (n & IH)].
    - exists 0. intros m _. apply busy_start.
    - exists 1. intros [|m] L; [lia|]. eexists. cbn [unroll]. now apply ct_then.
    - exists 1. intros [|m] L; [lia|]. eexists. cbn [unroll]. apply ct_then_fails. exact C.
    - exists 1. intros [|m] L; [lia|]. eexists. cbn [unroll]. replace k with (k + 0) by lia.
      eapply ct_then_on; [exact C|]. constructor.
    - exists (S n). intros [|m] L; [lia|]. destruct (IH m ltac:(lia)) as (r' & C'). exists r'. cbn [unroll]. eapply ct_then_on; [exact C|exact C'].
  Qed.

  Lemma unroll_leaves n : forall st acc q, leaves eqb (unroll n st acc) q = iter_leaves eqb it n st q.
  Proof.
    induction n as [|n IH]; intros st acc q; [reflexivity|]. cbn [unroll leaves iter_leaves]. f_equal.
    destruct (parse (built eqb (li_next it st)) (Chunked q)) as [[[[v|] st'] s|e s]| | |]; cbn [fst snd]; auto.
  Qed.

  Lemma leaves_enough n : forall st acc q, fold_loop n (built_iter eqb it) f st acc (Chunked q) <> OutOfFuel ->
    forall m, n <= m -> iter_leaves eqb it m st q = iter_leaves eqb it n st q.
  Proof.
    induction n as [|n IH]; intros st acc q F m L; [now destruct F|]. destruct m as [|m]; [lia|].
    cbn [iter_leaves]. f_equal. cbn [fold_loop] in F. unfold built_iter at 1 in F. cbn [it_next] in F.
    destruct (parse (built eqb (li_next it st)) (Chunked q)) as [[[[v|] st'] s|[e st'] s]| | |]; cbn [bind] in F; auto.
    rewrite (chunked_eta s) in F. apply (IH st' (f acc v) (ck_segs s) F). lia.
  Qed.
End Unroll.

Section Invert.
  Context {T : Type} (eqb : T -> T -> bool) (modulus : nat).

  Definition run_inv {O E} (p : lparser T O E) : @shared T -> gbuffer -> list (@revent T) -> @outcome T O E -> Prop :=
    match p in lparser _ O E return @shared T -> gbuffer -> list (@revent T) -> @outcome T O E -> Prop with
    | PJoin p0 p1 => fun x b h r =>
        (exists h0 o0 x0 b0 h1 o1 x1 b1, runs eqb modulus p0 x b h0 (Took o0 x0 b0) /\ runs eqb modulus p1 x0 b0 h1 (Took o1 x1 b1) /\
           h = h1 ++ h0 /\ r = Took (o0, o1) x1 b1) \/
        (exists e x0 b0, runs eqb modulus p0 x b h (Failed e x0 b0) /\ r = Failed (First e) x0 b0) \/
        (exists h0 o0 x0 b0 h1 e x1 b1, runs eqb modulus p0 x b h0 (Took o0 x0 b0) /\ runs eqb modulus p1 x0 b0 h1 (Failed e x1 b1) /\
           h = h1 ++ h0 /\ r = Failed (Last e) x1 b1)
    | PMap p f => fun x b h r =>
        (exists o x0 b0, runs eqb modulus p x b h (Took o x0 b0) /\ r = Took (f o) x0 b0) \/
        (exists e x0 b0, runs eqb modulus p x b h (Failed e x0 b0) /\ r = Failed e x0 b0)
    | PMapErr p f => fun x b h r =>
        (exists o x0 b0, runs eqb modulus p x b h (Took o x0 b0) /\ r = Took o x0 b0) \/
        (exists e x0 b0, runs eqb modulus p x b h (Failed e x0 b0) /\ r = Failed (f e) x0 b0)
    | PDone o => fun x b h r => h = [] /\ r = Took o x b
    | PFail e => fun x b h r => h = [] /\ r = Failed e x b
    | PThen from p k => fun x b h r =>
        (exists h0 o x0 b0 h1, runs eqb modulus p x b h0 (Took o x0 b0) /\ runs eqb modulus (k o) x0 b0 h1 r /\ h = h1 ++ h0) \/
        (exists e x0 b0, runs eqb modulus p x b h (Failed e x0 b0) /\ r = Failed (from e) x0 b0)
    | _ => fun _ _ _ _ => True
    end.
  Lemma runs_inv O E (p : lparser T O E) x b h r : runs eqb modulus p x b h r -> run_inv p x b h r.
  Proof. destruct 1; cbn; auto; eauto 20. Qed.

  Context {St O E Acc : Type} (it : live_iter T St O E) (f : Acc -> O -> Acc).
  Lemma unroll_back n : forall st acc x b h r, runs eqb modulus (unroll it f n st acc) x b h r ->
    match r with
    | Took a x' b' => folds eqb modulus it f st acc x b h (Took a x' b')
    | Failed (Some e) x' b' => folds eqb modulus it f st acc x b h (Failed e x' b')
    | Failed None _ _ => True
    end.
  Proof.
    induction n as [|n IH]; intros st acc x b h r R; apply runs_inv in R; cbn in R.
    - destruct R as (_ & ->). exact Logic.I.
    - destruct R as [(h0 & [v st'] & x0 & b0 & h1 & R0 & R1 & ->)|([e st'] & x0 & b0 & R & ->)].
      + destruct v as [v|]; cbn [fst snd] in R1.
        * apply IH in R1. destruct r as [a x' b'|[e|] x' b']; auto; eapply fo_more; eauto.
        * apply runs_inv in R1. cbn in R1. destruct R1 as (-> & ->). cbn [app]. eapply fo_stop; eauto.
      + cbn. eapply fo_fails; eauto.
  Qed.
End Invert.
