(** * P_ShortVecUnwind: ShortVec with panicking destructors, property C93. *)
From Coq Require Import Permutation.
From Verif Require Import L_ShortVec M_ShortVecUnwind S_ShortVecUnwind S_Unwind L_Unwind.

Section Properties.
  Context {T : Type} (panics : T -> bool).
  Context (N size imax : nat).
  Notation inv := (inv N size imax).
  (** [n] elements fit in memory. *)
  Definition room (n : nat) : Prop := n * size <= imax.

  Lemma log_drops_dropped (m : mem T) ds : dropped (log (log_drops m ds)) = dropped (log m) ++ ds.
  Proof. cbn. unfold dropped. rewrite flat_map_app. fold (dropped (map (fun v : T => EDrop v) ds)). now rewrite dropped_map. Qed.
  Lemma log_drops_allocated (m : mem T) ds : allocated (log (log_drops m ds)) = allocated (log m).
  Proof. cbn. unfold allocated. rewrite flat_map_app. fold (allocated (map (fun v : T => EDrop v) ds)). now rewrite allocated_map, app_nil_r. Qed.
  Lemma log_drops_freed (m : mem T) ds : freed (log (log_drops m ds)) = freed (log m).
  Proof. cbn. unfold freed. rewrite flat_map_app. fold (freed (map (fun v : T => EDrop v) ds)). now rewrite freed_map, app_nil_r. Qed.

  Lemma log_ok_drops (m : mem T) live ds : log_ok m live -> log_ok (log_drops m ds) live.
  Proof.
    revert m. induction ds as [|d ds IH]; intros m H.
    - unfold log_drops. cbn. rewrite app_nil_r. destruct m; exact H.
    - apply (log_ok_drop m live d) in H. apply IH in H. revert H. unfold log_drops. cbn. now rewrite <- app_assoc.
  Qed.
  Lemma inv_drops vs (sv : ShortVec T) m ds : inv vs (sv, m) -> inv vs (sv, log_drops m ds).
  Proof.
    intros (A & B & C & pre & D & E). split; [exact A|]. split; [exact B|]. split; [exact C|]. exists pre. split; [exact D|].
    cbn [fst snd] in *. destruct (data sv).
    - destruct E as (E1 & E2 & E3 & E4 & E5). repeat split; auto; try apply (log_ok_drops _ _ ds E5).
    - destruct E as (E1 & E2 & E3 & E4 & cl & E5 & E6 & E7 & E8). repeat split; auto. exists cl. repeat split; auto; try apply (log_ok_drops _ _ ds E8).
  Qed.

  (** A client error is an index out of bounds. *)
  Lemma client_error (vs : list T) c : stack_step vs c = None -> exists i v, c = CAssign i v /\ length vs <= i.
  Proof.
    destruct c as [v| |n|n| | |i v]; try discriminate. unfold stack_step. destruct (Nat.ltb_spec i (length vs)) as [L|L]; [discriminate|]. intros _. eauto.
  Qed.

  (** One call. *)
  Lemma caught_step vs st c : 0 < size -> inv vs st ->
    match perform_caught panics N size imax st c with
    | Ret None => bad panics (given [c]) <> 0
    | Ret (Some (u, st')) => exists vs', inv vs' st'
        /\ (forall cs us ws, suffers panics room vs' cs us ws -> suffers panics room vs (c :: cs) (u :: us) ws)
        /\ Permutation (given [c] ++ vs ++ dropped (log (snd st)))
             (handed_back [u] ++ vs' ++ dropped (log (snd st')))
    | Panic => False
    | UB => False
    | OutOfFuel => False
    end.
  Proof.
    intros Hs I.
    (* refused *)
    assert (REF : ~ room (2 * demand (length vs) c) \/ stack_step vs c = None ->
      match (let '(ds, e) := drop_in_place panics true (argument c) in
             match e with Aborts => Ret None | _ => Ret (Some (Unwound, (fst st, log_drops (snd st) ds))) end) with
      | Ret None => bad panics (given [c]) <> 0
      | Ret (Some (u, st')) => exists vs', inv vs' st'
          /\ (forall cs us ws, suffers panics room vs' cs us ws -> suffers panics room vs (c :: cs) (u :: us) ws)
          /\ Permutation (given [c] ++ vs ++ dropped (log (snd st)))
               (handed_back [u] ++ vs' ++ dropped (log (snd st')))
      | _ => False
      end).
    { intros R. assert (AG : argument c = given [c]) by (destruct c; reflexivity).
      destruct (drop_in_place panics true (argument c)) as [ds e] eqn:D. pose proof (glue_cases _ _ _ _ _ D) as G. rewrite AG in G.
      destruct e; [|destruct G; discriminate|lia].
      destruct G as (_ & ->). exists vs. split; [destruct st; now apply inv_drops|].
      split; [intros; now constructor|]. cbn [snd handed_back flat_map app]. rewrite log_drops_dropped.
      rewrite (Permutation_app_comm (given [c])), <- app_assoc. reflexivity. }
    (* a call other than an assignment *)
    assert (OTH : (forall i v, c <> CAssign i v) ->
      match match perform N size imax st c with
            | Ret (r, st') => Ret (Some (Replied r, st'))
            | Panic => (let '(ds, e) := drop_in_place panics true (argument c) in
                 match e with Aborts => Ret None | _ => Ret (Some (Unwound, (fst st, log_drops (snd st) ds))) end)
            | UB => UB
            | OutOfFuel => OutOfFuel
            end with
      | Ret None => bad panics (given [c]) <> 0
      | Ret (Some (u, st')) => exists vs', inv vs' st'
          /\ (forall cs us ws, suffers panics room vs' cs us ws -> suffers panics room vs (c :: cs) (u :: us) ws)
          /\ Permutation (given [c] ++ vs ++ dropped (log (snd st)))
               (handed_back [u] ++ vs' ++ dropped (log (snd st')))
      | Panic => False
      | UB => False
      | OutOfFuel => False
      end).
    { intros NA. destruct (stack_step vs c) as [[r vs']|] eqn:ST.
      - destruct (step_cases N size imax vs st c r vs' I ST (or_introl Hs)) as [(P & M & D)|(st' & P & I' & _ & _ & PM)]; rewrite P.
        + assert (X : ~ room (2 * demand (length vs) c) \/ Some (r, vs') = None).
          { left. unfold room. pose proof (cap_after_bound' c (cap (fst st)) (length vs) (demand (length vs) c) (Nat.le_refl _)) as CB.
            rewrite (Nat.max_r 1 size) in M by lia. nia. }
          specialize (REF X). destruct (drop_in_place panics true (argument c)) as [ds e]. destruct e; exact REF.
        + exists vs'. split; [exact I'|]. split; [|cbn [handed_back flat_map]; rewrite app_nil_r; exact PM].
          intros cs us ws Z. apply su_answered with vs'; auto. intros i v old E. now destruct (NA i v).
      - apply client_error in ST as (i & v & E & _). now destruct (NA i v). }
    destruct c as [v| |n|n| | |i v]; try (apply OTH; discriminate).
    (* an assignment *)
    clear OTH. cbn [perform_caught]. unfold assign_unwind.
    rewrite (inv_as_slice _ _ _ _ _ I). cbn [bind].
    destruct (nth_error vs i) as [old|] eqn:NE.
    - assert (LT : i < length vs) by (apply nth_error_Some; congruence).
      destruct (stack_step vs (CAssign i v)) as [[r vs']|] eqn:ST; [|apply client_error in ST as (? & ? & E & ?); injection E as -> ->; lia].
      destruct (step_cases N size imax vs st _ r vs' I ST (or_introl Hs)) as [(P & _ & D)|(st' & P & I' & _ & _ & PM)].
      { exfalso. destruct I as (? & ? & ? & _). cbn [demand] in D. lia. }
      destruct st as [sv m]. unfold perform, assign in P. cbn [fst snd] in *.
      pose proof (inv_as_slice _ _ _ _ _ I) as SL. cbn [fst snd] in SL. rewrite SL in P. cbn [bind] in P. rewrite NE in P.
      destruct (as_ptr N sv) as [p| | |]; cbn [bind] in *; try discriminate.
      destruct (ptr_write m sv p i v) as [[sv1 m1]| | |]; cbn [bind fst snd] in *; try discriminate.
      injection P as RR EE. subst r.
      assert (Q : drop_in_place panics false [old] = ([old], if panics old then Unwinds else Returns)) by (cbn; now destruct (panics old)).
      rewrite Q.
      assert (I2 : inv vs' (sv1, log_drops m1 [old])) by (rewrite <- EE in I'; exact I').
      assert (P2 : Permutation ([v] ++ vs ++ dropped (log m)) (vs' ++ dropped (log (log_drops m1 [old])))) by (rewrite <- EE in PM; exact PM).
      destruct (panics old) eqn:PO; exists vs'; (split; [exact I2|]); (split; [|exact P2]); intros cs us ws Z.
      + eapply su_replaced; eauto.
      + eapply su_answered; eauto. intros i0 v0 old0 E E2. injection E as <- <-. congruence.
    - apply REF. right. unfold stack_step. destruct (Nat.ltb_spec i (length vs)) as [L|L]; [|reflexivity].
      apply nth_error_Some in L. congruence.
  Qed.

  Lemma handed_cons u (us : list (caught T)) : handed_back (u :: us) = handed_back [u] ++ handed_back us.
  Proof. unfold handed_back. cbn. now rewrite app_nil_r. Qed.

  Lemma caught_run cs : forall vs st, 0 < size -> inv vs st ->
    match perform_all_caught panics N size imax st cs with
    | Ret None => bad panics (given cs) <> 0
    | Ret (Some (us, st')) => exists vs', inv vs' st' /\ suffers panics room vs cs us vs'
        /\ Permutation (given cs ++ vs ++ dropped (log (snd st)))
             (handed_back us ++ vs' ++ dropped (log (snd st')))
    | Panic => False
    | UB => False
    | OutOfFuel => False
    end.
  Proof.
    induction cs as [|c cs IH]; intros vs st Hs I; cbn [perform_all_caught].
    - exists vs. split; [exact I|]. split; [constructor|reflexivity].
    - pose proof (caught_step vs st c Hs I) as S. rewrite (given_cons c cs). unfold given_by.
      destruct (perform_caught panics N size imax st c) as [[[u st1]|]| | |]; cbn [bind]; auto.
      + destruct S as (vs1 & I1 & K & P). specialize (IH vs1 st1 Hs I1).
        destruct (perform_all_caught panics N size imax st1 cs) as [[[us st2]|]| | |]; cbn [bind]; auto.
        * destruct IH as (vs2 & I2 & K2 & P2). exists vs2. split; [exact I2|]. split; [now apply K|].
          rewrite handed_cons, <- !app_assoc, <- P2.
          rewrite (app_assoc (handed_back [u])), (Permutation_app_comm (handed_back [u])), <- app_assoc, <- P.
          rewrite !app_assoc. do 2 apply Permutation_app_tail. apply Permutation_app_comm.
        * unfold bad in *. rewrite filter_app, app_length. lia.
      + unfold bad in *. rewrite filter_app, app_length. lia.
  Qed.

  (** A vector made with capacity [c], then the calls, every panic caught. *)
  Definition session_caught (c : nat) (cs : list (call T)) : comp (option (list (caught T) * (ShortVec T * mem T))) :=
    ' st <- with_capacity N size imax mem_empty c ;; perform_all_caught panics N size imax st cs.

  (** ** The vector stays a stack *)
  (** No call does anything undefined, whatever panicked before; the contents are those
      of the stack that skips the calls refused; every value given is handed back, held or
      dropped once; the process aborts only over a value that panics while it is dropped. *)
  Theorem C93_session_partial c cs : 0 < size ->
    match session_caught c cs with
    | Ret (Some (us, st)) => exists vs, suffers panics room [] cs us vs /\ as_slice N (snd st) (fst st) = Ret vs
        /\ Permutation (given cs) (handed_back us ++ vs ++ dropped (log (snd st)))
    | Ret None => bad panics (given cs) <> 0
    | Panic => with_capacity N size imax (@mem_empty T) c = Panic
    | UB => False
    | OutOfFuel => False
    end.
  Proof.
    intros Hs. unfold session_caught.
    destruct (with_capacity_cases N size imax (@mem_empty T) c eq_refl eq_refl (or_introl Hs)) as [->|(st & -> & I & _ & D & _)]; [reflexivity|].
    cbn [bind]. pose proof (caught_run cs [] st Hs I) as R.
    destruct (perform_all_caught panics N size imax st cs) as [[[us st1]|]| | |]; auto; [|contradiction].
    destruct R as (vs & I1 & K & P). exists vs. split; [exact K|]. split; [exact (inv_as_slice _ _ _ _ _ I1)|].
    rewrite D, !app_nil_r in P. exact P.
  Qed.

  (** ** Dropping it *)
  (** The block the vector holds. *)
  Definition held_block (st : ShortVec T * mem T) : list (nat * nat) :=
    match data (fst st) with DStack _ => [] | DHeap id => [(id, cap (fst st) * size)] end.

  (** The drop never does anything undefined.  It returns if no destructor panics, then
      all is freed; it unwinds if one does, then all elements are dropped all the same but
      the block is not freed; it aborts for more. *)
  Theorem C93_drop_partial c cs us st unwinding : 0 < size -> session_caught c cs = Ret (Some (us, st)) ->
    exists vs m e, as_slice N (snd st) (fst st) = Ret vs /\ drop_unwind panics N size imax unwinding (snd st) (fst st) = Ret (m, e)
      /\ (e = Returns <-> bad panics vs = 0)
      /\ (e = Unwinds <-> bad panics vs = 1 /\ unwinding = false)
      /\ (e <> Aborts -> Permutation (given cs) (handed_back us ++ dropped (log m)))
      /\ NoDup (map fst (allocated (log m)))
      /\ Permutation (allocated (log m)) (freed (log m) ++ match e with Returns => [] | _ => held_block st end).
  Proof.
    intros Hs. unfold session_caught.
    destruct (with_capacity_cases N size imax (@mem_empty T) c eq_refl eq_refl (or_introl Hs)) as [->|(st0 & -> & I0 & _ & D0 & _)]; [discriminate|].
    cbn [bind]. intros R. pose proof (caught_run cs [] st0 Hs I0) as Q. rewrite R in Q. destruct Q as (vs & I & _ & PM).
    rewrite D0, !app_nil_r in PM. exists vs. pose proof (inv_as_slice _ _ _ _ _ I) as SL.
    destruct (inv_ptr _ _ _ _ _ I) as (p & cells & P1 & P2 & P3 & P4).
    destruct (drop_ok N size imax vs st I) as (md & DR & DD & PF & AL & ND & _).
    assert (LN : len (fst st) = length vs) by apply I.
    unfold drop in DR. unfold drop_unwind. rewrite P1 in DR |- *. cbn [bind] in DR |- *. rewrite P2 in DR |- *. cbn [bind] in DR |- *.
    rewrite LN, (read_cells_ok _ _ P4) in DR |- *. cbn [bind] in DR |- *.
    destruct (drop_in_place panics unwinding vs) as [ds e] eqn:G. apply glue_cases in G.
    destruct e.
    - destruct G as (B0 & ->).
      assert (X : (if is_heap N (fst st) then
          layout <- layout_array size imax (cap (fst st)) ;;
          match p with
          | PHeap id => m <- dealloc (log_drops (snd st) vs) id layout ;; Ret (m, Returns)
          | PStack => UB
          end
        else Ret (log_drops (snd st) vs, Returns)) = Ret (md, Returns)).
      { fold (log_drops (snd st) vs) in DR. destruct (is_heap N (fst st)); [|now injection DR as ->].
        destruct (layout_array size imax (cap (fst st))); try discriminate. cbn [bind] in *.
        destruct p; [discriminate|]. destruct (dealloc _ _ _); try discriminate. now injection DR as ->. }
      exists md, Returns. split; [exact SL|]. split; [exact X|]. split; [tauto|]. split; [split; [discriminate|lia]|].
      split; [intros _; rewrite DD; rewrite PM; now rewrite (Permutation_app_comm vs)|]. split; [exact ND|]. now rewrite app_nil_r.
    - destruct G as (-> & B1 & ->). eexists _, Unwinds. split; [exact SL|]. split; [reflexivity|].
      split; [split; [discriminate|lia]|]. split; [tauto|].
      split; [intros _; rewrite log_drops_dropped, PM; now rewrite (Permutation_app_comm vs)|].
      rewrite log_drops_allocated, log_drops_freed. rewrite <- AL. split; [exact ND|]. rewrite AL.
      destruct I as (_ & _ & _ & pre & _ & E). unfold held_block. destruct (data (fst st)); [apply E|].
      destruct E as (_ & _ & _ & -> & cl & _ & _ & _ & (L & _)). exact L.
    - eexists _, Aborts. split; [exact SL|]. split; [reflexivity|].
      split; [split; [discriminate|destruct unwinding; lia]|]. split; [split; [discriminate|destruct unwinding; [intros (_ & ?); discriminate|lia]]|].
      split; [congruence|]. rewrite log_drops_allocated, log_drops_freed. rewrite <- AL. split; [exact ND|]. rewrite AL.
      destruct I as (_ & _ & _ & pre & _ & E). unfold held_block. destruct (data (fst st)); [apply E|].
      destruct E as (_ & _ & _ & -> & cl & _ & _ & _ & (L & _)). exact L.
  Qed.
End Properties.

(** ** The block is lost *)
(** Inline size 2, elements of 8 bytes, three of them, the second panics: the block of
    the vector is never freed. *)
Theorem C93_leak_refuted : exists (cs : list (call nat)) us st m,
  session_caught (Nat.eqb 2) 2 8 1000 0 cs = Ret (Some (us, st))
  /\ drop_unwind (Nat.eqb 2) 2 8 1000 false (snd st) (fst st) = Ret (m, Unwinds)
  /\ dropped (log m) = [1; 2; 3] /\ allocated (log m) = [(0, 32)] /\ freed (log m) = [].
Proof. 
  exists [CPush 1; CPush 2; CPush 3]. eexists _, _, _.
  split; [vm_compute; reflexivity|]. split; [vm_compute; reflexivity|]. split; [vm_compute; reflexivity|].
  split; vm_compute; reflexivity.
Qed.

(** A push refused for want of address space, an assignment over a value that panics and
    one out of bounds: the vector goes on. *)
Example C93_case : exists st,
  session_caught (Nat.eqb 2) 2 8 40 0 [CPush 1; CPush 2; CAssign 1 5; CAssign 9 4; CPush 3; CReserve 6; CPop; CAsSlice]
  = Ret (Some ([Replied RUnit; Replied RUnit; Unwound; Unwound; Replied RUnit; Unwound; Replied (RPop (Some 3)); Replied (RSlice [1; 5])], st))
  /\ dropped (log (snd st)) = [2; 4].
Proof. eexists. split; vm_compute; reflexivity. Qed.
Example C93_case_abort : session_caught (Nat.eqb 2) 2 8 40 0 [CAssign 0 2] = Ret None.
Proof. reflexivity. Qed.

Print Assumptions C93_session_partial.
Print Assumptions C93_drop_partial.
Print Assumptions C93_leak_refuted.
