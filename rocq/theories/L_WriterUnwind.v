(** * L_WriterUnwind: programs on the writer of the generic sequence when destructors panic. *)
From Coq Require Import Lia Permutation.
From Verif Require Import L_GenSeq2 L_Unwind L_Writer.
From Verif Require Export M_WriterUnwind S_Contract S_Unwind S_WriterUnwind.

Local Arguments Nat.ltb : simpl never.
Local Arguments Nat.leb : simpl never.
Local Arguments Nat.eqb : simpl never.
Local Arguments Nat.mul : simpl never.
Local Arguments Nat.min : simpl never.

Section Glue.
  Context {T : Type} (panics : T -> bool).

  Lemma glue_false (xs : list T) :
    match bad panics xs with
    | 0 => drop_in_place panics false xs = (xs, Returns)
    | 1 => drop_in_place panics false xs = (xs, Unwinds)
    | _ => exists ds, drop_in_place panics false xs = (ds, Aborts)
    end.
  Proof.
    destruct (drop_in_place panics false xs) as [ds e] eqn:D. pose proof (glue_cases _ _ _ _ _ D) as G. destruct e.
    - destruct G as (-> & ->). reflexivity.
    - destruct G as (_ & -> & ->). reflexivity.
    - cbn in G. destruct (bad panics xs) as [|[|?]]; try lia. eauto.
  Qed.
  Lemma glue_true (xs : list T) :
    match bad panics xs with
    | 0 => drop_in_place panics true xs = (xs, Returns)
    | _ => exists ds, drop_in_place panics true xs = (ds, Aborts)
    end.
  Proof.
    destruct (drop_in_place panics true xs) as [ds e] eqn:D. pose proof (glue_cases _ _ _ _ _ D) as G. destruct e.
    - destruct G as (-> & ->). reflexivity.
    - destruct G; discriminate.
    - cbn in G. destruct (bad panics xs); [lia|]. eauto.
  Qed.

  Lemma assign_over_is (news : list T) : forall olds,
    let m := Nat.min (length news) (until panics olds) in
    assign_over panics news olds =
      (firstn m news ++ skipn m olds, firstn m olds, match bad panics (firstn m olds) with 0 => Returns | _ => Unwinds end).
  Proof.
    induction news as [|x news IH]; intros olds; [reflexivity|]. destruct olds as [|y olds]; [reflexivity|].
    cbn [assign_over until length]. destruct (panics y) eqn:Q.
    - replace (Nat.min (S (length news)) 1) with 1 by lia. cbn. unfold bad. cbn. rewrite Q. reflexivity.
    - specialize (IH olds). cbv zeta in IH. rewrite IH.
      change (Nat.min (S (length news)) (S (until panics olds))) with (S (Nat.min (length news) (until panics olds))).
      cbn. unfold bad. cbn. rewrite Q. reflexivity.
  Qed.

  Lemma read_items_ok (xs : list T) rest : read_items (map Some xs ++ rest) (length xs) = Ret xs.
  Proof. induction xs as [|x xs IH]; cbn; [now destruct rest|]. now rewrite IH. Qed.
  Lemma read_items_stale (xs : list T) k rest n : length xs < n -> 0 < k ->
    read_items (map Some xs ++ repeat None k ++ rest) n = UB.
  Proof.
    intros L K. revert n L. induction xs as [|x xs IH]; intros n L; cbn [length map app] in *.
    - destruct n; [lia|]. destruct k; [lia|]. reflexivity.
    - destruct n; [lia|]. cbn [read_items]. rewrite IH by lia. reflexivity.
  Qed.
End Glue.

Section Run.
  Context {T E : Type} (panics : T -> bool).
  Notation ops := (request_writer_ops T E).
  Implicit Types (r : request T) (xs : list T).

  (** As [shrink_to], but the length is set first, as [Vec::truncate] does. *)
  Definition shrink_repaired (r : request T) (new_len : nat) : comp (request T * list T * drop_end) :=
    len <- bw_len ops r ;;
    if new_len <=? len then
      if new_len =? len then Ret (r, [], Returns)
      else
        xs <- read_range ops r new_len (len - new_len) ;;
        let r1 := Request (to_append r) (vec_forget (rbuf r) (roffset r + new_len) (len - new_len)) (roffset r) in
        r2 <- bw_set_len ops r1 new_len ;;
        let '(ds, e) := drop_in_place panics false xs in Ret (r2, ds, e)
    else Panic.

  Definition shrink_as (late : bool) : request T -> nat -> comp (request T * list T * drop_end) :=
    if late then shrink_unwind (E := E) panics else shrink_repaired.

  (** [k] cells are counted though nothing is in them. *)
  Definition stale pre r xs k : Prop :=
    (exists rest, cells (rbuf r) = map Some (pre ++ xs) ++ repeat None k ++ rest)
    /\ vlen (rbuf r) = length (pre ++ xs) + k /\ roffset r = length pre.

  Lemma rinv_stale pre r xs : rinv pre r xs <-> stale pre r xs 0.
  Proof.
    unfold rinv, stale, holds. rewrite Nat.add_0_r. cbn. split.
    - intros ((rest & A & B) & C). split; [eauto|auto].
    - intros ((rest & A) & B & C). split; [eauto|auto].
  Qed.

  (** Forgetting the items from [n] on. *)
  Lemma forgotten pre r xs n : rinv pre r xs -> n <= length xs ->
    stale pre (Request (to_append r) (vec_forget (rbuf r) (roffset r + n) (length xs - n)) (roffset r)) (firstn n xs) (length xs - n)
    /\ vcap (vec_forget (rbuf r) (roffset r + n) (length xs - n)) = vcap (rbuf r).
  Proof.
    intros ((rest & C & LN) & O) L. unfold stale, vec_forget. cbn [rbuf roffset cells vlen].
    assert (VC : vcap (rbuf r) = length pre + length xs + length rest) by (unfold vcap; rewrite C, app_length, map_length, app_length; reflexivity).
    rewrite VC, O. replace (Nat.min (length xs - n) (length pre + length xs + length rest - (length pre + n))) with (length xs - n) by lia.
    assert (F1 : firstn (length pre + n) (cells (rbuf r)) = map Some (pre ++ firstn n xs)).
    { rewrite C, firstn_app, map_length, app_length. replace (length pre + n - (length pre + length xs)) with 0 by lia.
      cbn [firstn]. rewrite app_nil_r, firstn_map. f_equal. rewrite firstn_app_2. reflexivity. }
    assert (F2 : skipn (length pre + n + (length xs - n)) (cells (rbuf r)) = rest).
    { replace (length pre + n + (length xs - n)) with (length (map (@Some T) (pre ++ xs))) by (rewrite map_length, app_length; lia).
      rewrite C. apply skipn_length_app. }
    rewrite F1, F2. split.
    - split; [eauto|]. split; [|reflexivity]. rewrite LN, !app_length, firstn_length. lia.
    - unfold vcap. cbn [cells]. rewrite !app_length, map_length, repeat_length, app_length, firstn_length. lia.
  Qed.

  (** What both shrinks do. *)
  Lemma shrink_ok late pre r xs n : rinv pre r xs -> n <= length xs ->
    let ds := skipn n xs in
    match bad panics ds with
    | 0 => exists r', shrink_as late r n = Ret (r', ds, Returns) /\ rinv pre r' (firstn n xs) /\ to_append r' = to_append r
        /\ vcap (rbuf r') = vcap (rbuf r)
    | 1 => exists r', shrink_as late r n = Ret (r', ds, Unwinds) /\ stale pre r' (firstn n xs) (if late then length xs - n else 0)
        /\ to_append r' = to_append r
    | _ => exists r' l, shrink_as late r n = Ret (r', l, Aborts)
    end.
  Proof.
    intros I L ds. destruct (Nat.eq_dec n (length xs)) as [->|NE].
    - subst ds. rewrite skipn_all, firstn_all. cbn. exists r. split; [|auto].
      unfold shrink_as. destruct late; unfold shrink_unwind, shrink_repaired; rewrite (r_len (E := E) _ _ _ I); cbn [bind];
        rewrite Nat.leb_refl, Nat.eqb_refl; reflexivity.
    - destruct (forgotten pre r xs n I L) as (F & V). set (r1 := Request (to_append r) _ (roffset r)) in *.
      assert (R : read_range ops r n (length xs - n) = Ret ds).
      { rewrite (r_read (E := E) _ _ _ I) by lia. unfold ds. f_equal. apply firstn_all2. rewrite skipn_length. lia. }
      assert (SL : exists r2, bw_set_len ops r1 n = Ret r2 /\ rinv pre r2 (firstn n xs) /\ to_append r2 = to_append r /\ vcap (rbuf r2) = vcap (rbuf r)).
      { destruct F as ((rest & C) & _ & O). destruct (r_set_len (E := E) pre (firstn n xs) r1 _ C O) as (r2 & E2 & I2 & T2 & V2).
        rewrite firstn_length, Nat.min_l in E2 by auto. exists r2. split; [exact E2|]. split; [exact I2|]. split; [exact T2|].
        rewrite V2. exact V. }
      destruct SL as (r2 & E2 & I2 & T2 & V2).
      unfold shrink_as. destruct late; unfold shrink_unwind, shrink_repaired; rewrite (r_len (E := E) _ _ _ I); cbn [bind];
        rewrite (proj2 (Nat.leb_le _ _)) by auto; rewrite (proj2 (Nat.eqb_neq _ _)) by auto; rewrite R; cbn [bind]; fold r1;
        pose proof (glue_false panics ds) as GL; destruct (bad panics ds) as [|[|b]].
      + rewrite GL, E2. cbn [bind]. eauto 6.
      + rewrite GL. exists r1. auto.
      + destruct GL as (l & ->). eauto.
      + rewrite GL, E2. cbn [bind]. eauto 6.
      + rewrite GL, E2. cbn [bind]. exists r2. split; [reflexivity|]. split; [|auto]. now apply rinv_stale.
      + destruct GL as (l & ->). rewrite E2. cbn [bind]. eauto.
  Qed.

  Lemma edit_ok pre r xs f : rinv pre r xs ->
    let m := Nat.min (length (f xs)) (until panics xs) in
    exists r', edit_unwind (E := E) panics r f = Ret (r', firstn m xs, match bad panics (firstn m xs) with 0 => Returns | _ => Unwinds end)
      /\ rinv pre r' (firstn m (f xs) ++ skipn m xs) /\ to_append r' = to_append r /\ vcap (rbuf r') = vcap (rbuf r).
  Proof.
    intros I m. unfold edit_unwind. rewrite (r_slice (E := E) _ _ _ I). cbn [bind].
    rewrite (assign_over_is panics (f xs) xs). fold m.
    assert (UL : until panics xs <= length xs).
    { clear. induction xs as [|x xs IH]; cbn; [lia|]. destruct (panics x); lia. }
    set (zs := firstn m (f xs) ++ skipn m xs).
    assert (LZ : length zs = length xs) by (unfold zs; rewrite app_length, firstn_length, skipn_length; unfold m; lia).
    destruct I as ((rest & C & LN) & O).
    destruct (r_write_range (E := E) pre zs r [] O) as (r1 & E1 & T1 & O1 & C1 & rest1 & E2).
    - exists (map Some xs ++ rest). now rewrite app_nil_r, C, map_app, app_assoc.
    - rewrite app_nil_r, LZ, <- app_length. unfold vcap. rewrite C, (app_length (map Some (pre ++ xs))), map_length. lia.
    - cbn [length] in E1. rewrite E1. cbn [bind]. exists r1. split; [reflexivity|]. split; [|auto].
      split; [|congruence]. exists rest1. split; [exact E2|].
      rewrite (write_range_vlen (E := E) _ _ _ _ E1), LN, !app_length, LZ. reflexivity.
  Qed.

  (** How an answer is given. *)
  Definition ends_unwind {G} r (e : ending E G) (log : list T) : comp (uout T E G * list T) :=
    match e with
    | Advances g => ' (res, buf) <- bw_advance ops r ;; Ret (UAnswer res buf g, log)
    | Cancels x g => cancel_unwind panics r x g log
    end.

  Lemma owned_ok {G} late (p : wprog T E G) : forall pre r a, rinv pre r (held a) ->
    let room := vcap (rbuf r) - length pre in
    match owned panics late room p a with
    | Ret (a', TAnswers e) => exists r', rinv pre r' (held a') /\ to_append r' = to_append r /\ vcap (rbuf r') = vcap (rbuf r)
        /\ run_unwind panics (shrink_as late) p r (gone a) = ends_unwind r' e (gone a')
    | Ret (a', TUnwinds k) => exists r', stale pre r' (held a') k /\ to_append r' = to_append r
        /\ run_unwind panics (shrink_as late) p r (gone a) = leave panics r' (gone a')
    | Ret (_, TAborts) => exists log, run_unwind panics (shrink_as late) p r (gone a) = Ret (UAborted, log)
    | Panic => run_unwind panics (shrink_as late) p r (gone a) = Panic
    | UB => run_unwind panics (shrink_as late) p r (gone a) = UB
    | OutOfFuel => False
    end.
  Proof.
    assert (CONT : forall (q : wprog T E G) pre r r' (a' : account T),
      (forall pre r a, rinv pre r (held a) ->
       let room := vcap (rbuf r) - length pre in
       match owned panics late room q a with
       | Ret (a', TAnswers e) => exists r', rinv pre r' (held a') /\ to_append r' = to_append r /\ vcap (rbuf r') = vcap (rbuf r)
           /\ run_unwind panics (shrink_as late) q r (gone a) = ends_unwind r' e (gone a')
       | Ret (a', TUnwinds k) => exists r', stale pre r' (held a') k /\ to_append r' = to_append r
           /\ run_unwind panics (shrink_as late) q r (gone a) = leave panics r' (gone a')
       | Ret (_, TAborts) => exists log, run_unwind panics (shrink_as late) q r (gone a) = Ret (UAborted, log)
       | Panic => run_unwind panics (shrink_as late) q r (gone a) = Panic
       | UB => run_unwind panics (shrink_as late) q r (gone a) = UB
       | OutOfFuel => False
       end) ->
      rinv pre r' (held a') -> to_append r' = to_append r -> vcap (rbuf r') = vcap (rbuf r) ->
      match owned panics late (vcap (rbuf r) - length pre) q a' with
      | Ret (a'', TAnswers e) => exists r'', rinv pre r'' (held a'') /\ to_append r'' = to_append r /\ vcap (rbuf r'') = vcap (rbuf r)
          /\ run_unwind panics (shrink_as late) q r' (gone a') = ends_unwind r'' e (gone a'')
      | Ret (a'', TUnwinds k) => exists r'', stale pre r'' (held a'') k /\ to_append r'' = to_append r
          /\ run_unwind panics (shrink_as late) q r' (gone a') = leave panics r'' (gone a'')
      | Ret (_, TAborts) => exists log, run_unwind panics (shrink_as late) q r' (gone a') = Ret (UAborted, log)
      | Panic => run_unwind panics (shrink_as late) q r' (gone a') = Panic
      | UB => run_unwind panics (shrink_as late) q r' (gone a') = UB
      | OutOfFuel => False
      end).
    { intros q pre r r' a' IH I' TA VC. specialize (IH pre r' a' I'). cbv zeta in IH. rewrite VC in IH.
      destruct (owned panics late _ q a') as [[a'' t]| | |]; auto. destruct t; auto.
      - destruct IH as (r2 & A & B & C & D). exists r2. split; [auto|]. split; [congruence|]. split; [congruence|exact D].
      - destruct IH as (r2 & A & B & D). exists r2. split; [auto|]. split; [congruence|exact D]. }
    induction p as [x k IH|ys k IH|n k IH|k IH|k IH|k IH|f k IH|g0|e g0]; intros pre r a I room; cbn [run_unwind owned];
      set (xs := held a) in *.
    - assert (LC : length (pre ++ xs) <= vcap (rbuf r)) by (destruct I; now apply holds_cap). rewrite app_length in LC.
      destruct (Nat.eqb_spec (2 * length xs) room) as [Q|Q].
      + rewrite (r_push_err (E := E) pre r xs x I) by (rewrite app_length; unfold room in Q; lia). cbn [bind].
        exact (IH false pre r a I).
      + destruct (Nat.ltb_spec (length xs) room) as [L|L].
        * destruct (r_push_ok (E := E) pre r xs x I) as (r' & P & I' & TA & VC); [rewrite app_length; unfold room in *; lia|rewrite app_length; unfold room in *; lia|].
          rewrite P. cbn [bind].
          exact (CONT _ pre r r' (Account (xs ++ [x]) (given_in a ++ [x]) (gone a)) (IH true) I' TA VC).
        * rewrite (r_push_ub (E := E) pre r xs x I); [reflexivity|rewrite app_length; unfold room in *; lia|rewrite app_length; unfold room in *; lia].
    - assert (LC : length (pre ++ xs) <= vcap (rbuf r)) by (destruct I; now apply holds_cap). rewrite app_length in LC.
      destruct (Nat.ltb_spec room (2 * length xs)) as [Q|Q].
      + unfold fill, spare_capacity. rewrite (r_len (E := E) _ _ _ I). cbn [bind]. rewrite (r_cap (E := E) _ _ _ I). cbn [bind].
        unfold usub. rewrite (proj2 (Nat.leb_gt _ _)) by (rewrite app_length; unfold room in *; lia). reflexivity.
      + assert (F : exists r', fill ops r ys = Ret (r', length (firstn (room - 2 * length xs) ys))).
        { unfold fill, spare_capacity. rewrite (r_len (E := E) _ _ _ I). cbn [bind]. rewrite (r_cap (E := E) _ _ _ I). cbn [bind].
          unfold usub. rewrite (proj2 (Nat.leb_le _ _)) by (rewrite app_length; unfold room in *; lia). cbn [bind].
          replace (vcap (rbuf r) - length (pre ++ xs) - length xs) with (room - 2 * length xs) by (rewrite app_length; unfold room in *; lia).
          set (zs := firstn _ ys). assert (length zs <= room - 2 * length xs) by (unfold zs; rewrite firstn_length; lia).
          destruct I as ((rest & C & LN) & O).
          destruct (r_write_range (E := E) pre zs r xs O (ex_intro _ rest C)) as (r1 & E1 & T1 & O1 & C1 & rest1 & E2); [rewrite app_length; unfold room in *; lia|].
          rewrite E1. cbn [bind]. destruct (r_set_len (E := E) pre (xs ++ zs) r1 rest1 E2) as (r2 & E3 & _); [congruence|].
          rewrite app_length in E3. rewrite E3. cbn [bind]. eauto. }
        destruct F as (r' & F). destruct (r_fill_inv (E := E) pre r xs ys r' _ I F) as (I' & TA & VC).
        rewrite firstn_length_firstn in I'. rewrite F. cbn [bind]. cbv zeta.
        exact (CONT _ pre r r' (Account _ _ (gone a)) (IH _) I' TA VC).
    - destruct (Nat.leb_spec n (length xs)) as [Q|Q].
      + pose proof (shrink_ok late pre r xs n I Q) as S. cbv zeta in S |- *.
        destruct (bad panics (skipn n xs)) as [|[|b]].
        * destruct S as (r' & S & I' & TA & VC). rewrite S. cbn [bind].
          exact (CONT _ pre r r' (Account (firstn n xs) (given_in a) (gone a ++ skipn n xs)) IH I' TA VC).
        * destruct S as (r' & S & I' & TA). rewrite S. cbn [bind]. exists r'. auto.
        * destruct S as (r' & l & S). rewrite S. cbn [bind]. eauto.
      + unfold shrink_as. destruct late; unfold shrink_unwind, shrink_repaired; rewrite (r_len (E := E) _ _ _ I); cbn [bind];
          now rewrite (proj2 (Nat.leb_gt _ _)).
    - rewrite (r_len (E := E) _ _ _ I). cbn [bind]. exact (IH _ pre r a I).
    - rewrite (r_cap (E := E) _ _ _ I). cbn [bind].
      replace (vcap (rbuf r) - length (pre ++ xs)) with (room - length xs) by (rewrite app_length; unfold room; lia).
      exact (IH _ pre r a I).
    - rewrite (r_slice (E := E) _ _ _ I). cbn [bind]. exact (IH _ pre r a I).
    - destruct (edit_ok pre r xs f I) as (r' & S & I' & TA & VC). rewrite S. cbn [bind]. cbv zeta.
      set (m := Nat.min (length (f xs)) (until panics xs)) in *.
      destruct (bad panics (firstn m xs)) as [|b].
      + exact (CONT _ pre r r' (Account (firstn m (f xs) ++ skipn m xs) (given_in a ++ firstn m (f xs)) (gone a ++ firstn m xs)) IH I' TA VC).
      + exists r'. split; [now apply rinv_stale|auto].
    - exists r. auto.
    - exists r. auto.
  Qed.

  (** The account is kept: every item is held or gone, once. *)
  Lemma owned_account {G} late room (p : wprog T E G) : forall a a' t, owned panics late room p a = Ret (a', t) ->
    t <> TAborts -> exists ins, given_in a' = given_in a ++ ins /\ Permutation (held a ++ gone a ++ ins) (held a' ++ gone a').
  Proof.
    assert (REFL : forall a : account T, exists ins, given_in a = given_in a ++ ins /\ Permutation (held a ++ gone a ++ ins) (held a ++ gone a)).
    { intros a. exists []. rewrite !app_nil_r. auto. }
    induction p as [x k IH|ys k IH|n k IH|k IH|k IH|k IH|f k IH|g0|e g0]; intros a a' t; cbn [owned]; set (xs := held a) in *.
    - destruct (_ =? _); [apply IH|]. destruct (_ <? _); [|discriminate]. intros H NT.
      destruct (IH _ _ _ _ H NT) as (ins & E1 & E2). cbn [held given_in gone] in *. exists ([x] ++ ins).
      split; [now rewrite app_assoc|]. rewrite <- E2, <- app_assoc. apply Permutation_app_head.
      rewrite app_assoc, (Permutation_app_comm (gone a)), <- app_assoc. reflexivity.
    - destruct (_ <? _); [discriminate|]. intros H NT. destruct (IH _ _ _ _ H NT) as (ins & E1 & E2). cbn [held given_in gone] in *.
      eexists (_ ++ ins). split; [rewrite E1, app_assoc; reflexivity|]. rewrite <- E2, <- app_assoc. apply Permutation_app_head.
      rewrite app_assoc, (Permutation_app_comm (gone a)), <- app_assoc. reflexivity.
    - destruct (_ <=? _); [|discriminate]. cbv zeta. destruct (bad panics (skipn n xs)) as [|[|b]]; intros H NT.
      + destruct (IH _ _ _ H NT) as (ins & E1 & E2). cbn [held given_in gone] in *. exists ins. split; [exact E1|].
        rewrite <- E2. rewrite <- (firstn_skipn n xs) at 1. rewrite <- !app_assoc. apply Permutation_app_head.
        rewrite !app_assoc. apply Permutation_app_tail, Permutation_app_comm.
      + injection H as <- <-. cbn [held given_in gone]. exists []. rewrite !app_nil_r. split; [reflexivity|].
        rewrite <- (firstn_skipn n xs) at 1. rewrite <- !app_assoc. apply Permutation_app_head, Permutation_app_comm.
      + injection H as <- <-. congruence.
    - apply IH.
    - apply IH.
    - apply IH.
    - cbv zeta. set (m := Nat.min (length (f xs)) (until panics xs)).
      assert (STEP : forall ins, Permutation (xs ++ gone a ++ firstn m (f xs) ++ ins)
        ((firstn m (f xs) ++ skipn m xs) ++ (gone a ++ firstn m xs) ++ ins)).
      { intros ins. rewrite <- (firstn_skipn m xs) at 1. rewrite <- !app_assoc.
        rewrite (Permutation_app_comm (firstn m xs)), <- !app_assoc.
        rewrite (Permutation_app_comm (firstn m (f xs)) (skipn m xs ++ _)), <- !app_assoc. apply Permutation_app_head, Permutation_app_head.
        rewrite (app_assoc (firstn m (f xs))), Permutation_app_comm.
        rewrite (app_assoc (firstn m xs) ins). rewrite (Permutation_app_comm (firstn m (f xs)) ins).
        rewrite !app_assoc. reflexivity. }
      destruct (bad panics (firstn m xs)); intros H NT.
      + destruct (IH _ _ _ H NT) as (ins & E1 & E2). cbn [held given_in gone] in *. exists (firstn m (f xs) ++ ins).
        split; [now rewrite E1, app_assoc|]. rewrite <- E2. apply STEP.
      + injection H as <- <-. cbn [held given_in gone]. exists (firstn m (f xs)). split; [reflexivity|].
        specialize (STEP []). rewrite !app_nil_r in STEP. exact STEP.
    - intros H _. injection H as <- <-. apply REFL.
    - intros H _. injection H as <- <-. apply REFL.
  Qed.
End Run.
