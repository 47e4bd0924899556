(** * L_BinMem: BinExprParser on the memory of its vector. *)
From Verif Require Export M_BinExprMem S_BinMem L_ShortVec L_BinExpr.

Local Arguments Nat.ltb : simpl never.
Local Arguments Nat.leb : simpl never.
Local Arguments inline : simpl never.

(** ** One call of the vector *)
Section Calls.
  Context {T : Type} (N size imax : nat).
  Notation inv := (inv N size imax).

  Lemma pop_cases (vs : list T) st : inv vs st ->
    (vs = [] /\ pop N (snd st) (fst st) = Ret (None, fst st)) \/
    exists vs0 v sv, vs = vs0 ++ [v] /\ pop N (snd st) (fst st) = Ret (Some v, sv) /\ inv vs0 (sv, snd st) /\ cap sv = cap (fst st).
  Proof.
    intros Hi. destruct vs as [|v vs0 _] using rev_ind.
    - left. split; auto. destruct Hi as (_ & L & _). unfold pop, is_empty. rewrite L. reflexivity.
    - right. destruct (step_cases N size imax (vs0 ++ [v]) st CPop (RPop (Some v)) vs0 Hi) as [(_ & _ & Q)|(st' & E & I' & C & _)].
      + cbn. rewrite rev_app_distr. cbn. now rewrite removelast_last.
      + right. cbn. lia.
      + cbn in Q. lia.
      + unfold perform in E. destruct st as [sv m]. destruct (pop N m sv) as [[x sv']| | |] eqn:P; cbn in E; try discriminate.
        injection E as -> <-. exists vs0, v, sv'. cbn in C. auto.
  Qed.

  Lemma push_cases (vs : list T) st v : inv vs st -> 0 < size \/ length vs + 1 <= cap (fst st) ->
    (push N size imax (snd st) (fst st) v = Panic /\ cap (fst st) < length vs + 1 /\
       imax < Nat.max (cap (fst st) * 2) (length vs + 1) * Nat.max 1 size) \/
    exists st', push N size imax (snd st) (fst st) v = Ret st' /\ inv (vs ++ [v]) st' /\
      cap (fst st') = (if length vs + 1 <=? cap (fst st) then cap (fst st) else Nat.max (cap (fst st) * 2) (length vs + 1)) /\
      length (allocated (log (snd st'))) = (if length vs + 1 <=? cap (fst st) then 0 else 1) + length (allocated (log (snd st))) /\
      Permutation (dropped (log (snd st))) (dropped (log (snd st'))).
  Proof.
    intros Hi Hs. unfold push. pose proof Hi as (_ & L & _).
    assert (F : forall st1, inv vs st1 -> length vs < cap (fst st1) ->
      exists st', (p <- as_ptr N (fst st1) ;; ' r <- ptr_write (snd st1) (fst st1) p (len (fst st)) v ;;
                   Ret (MkShortVec (cap (fst r)) (len (fst st) + 1) (data (fst r)), snd r)) = Ret st' /\
        inv (vs ++ [v]) st' /\ cap (fst st') = cap (fst st1) /\ log (snd st') = log (snd st1)).
    { intros st1 I1 C1. rewrite L.
      destruct (inv_write N size imax vs (vs ++ [v]) st1 (length vs) v I1) as (p & st2 & W1 & W2 & W3 & W4 & W5 & W6).
      - lia.
      - rewrite app_length. cbn. lia.
      - intros cells F1 L1. rewrite app_length, Nat.add_1_r, firstn_set_snoc by lia. rewrite F1, map_app. reflexivity.
      - rewrite W1. cbn [bind]. rewrite W2. cbn [bind]. eexists. split; [reflexivity|].
        rewrite app_length in W6. cbn [length] in W6. cbn [fst snd cap]. auto. }
    rewrite L in *. destruct (reserve_cases N size imax vs st (length vs + 1) Hi Hs) as [(C & E)|[(C & I' & E)|(C & st1 & E & I1 & C1 & L1 & D1 & A1)]].
    - right. rewrite E. cbn [bind]. destruct (F st Hi) as (st' & E' & I' & C' & G'); [lia|]. exists st'. split; [exact E'|].
      rewrite (proj2 (Nat.leb_le _ _) C), G'. auto.
    - left. rewrite E. auto.
    - right. rewrite E. cbn [bind]. destruct (F st1 I1) as (st' & E' & I' & C' & G'); [lia|]. exists st'. split; [exact E'|].
      rewrite (proj2 (Nat.leb_gt _ _) C), G', C', D1. auto.
  Qed.
End Calls.

Lemma rev_cons_split {X} (l : list X) a x : rev l = a ++ [x] -> exists l', l = x :: l' /\ rev l' = a.
Proof.
  intros E. exists (rev a). rewrite <- (rev_involutive l), E, rev_app_distr, rev_involutive. auto.
Qed.

Section Run.
  Context {S A : Type} {RS : RewindSequence S A}.
  Context {T TE Op OE Expr : Type} {PT : ParseError TE} {PO : ParseError OE} {OP : Operator Op}.
  Context (from_term : T -> Expr) (from_bin : Expr -> Op -> Expr -> Expr) (usize_max : nat) (overflow_checks : bool).
  Context (size imax : nat).
  Context (term : dparser S T TE) (op : dparser S Op OE).
  Notation inv := (inv inline size imax).
  Notation insert := (insert_loop from_bin usize_max overflow_checks).
  Notation insertm := (insert_mem from_bin usize_max overflow_checks size imax).
  Notation loop := (bin_loop (S := S) from_term from_bin usize_max overflow_checks).
  Notation loopm := (bin_loop_mem (S := S) from_term from_bin usize_max overflow_checks size imax).
  Notation ans := (answer (S := S) (A := A) (TE := TE) (Op := Op) (OE := OE) (Expr := Expr)).
  Notation leave := (leave (S := S) (A := A) (TE := TE) (OE := OE) size imax).
  Implicit Types (stack : list (Expr * Op)) (st : vector (Expr := Expr) (Op := Op)) (rhs : Expr).

  Definition count st : nat := length (allocated (log (snd st))).
  Definition undropped st : Prop := dropped (log (snd st)) = [].

  Lemma inv_len stack st : inv (rev stack) st -> len (fst st) = length stack /\ length stack <= cap (fst st) /\ inline <= cap (fst st).
  Proof. intros (A1 & L & C & _). rewrite rev_length in *. auto. Qed.

  (** What inserting does: the stack [stack'] fits, or the vector grows. *)
  Definition inserted (c : comp (vector * comp Expr)) st stack' rhs' : Prop :=
    (0 < size \/ length stack' <= cap (fst st) ->
      (c = Panic /\ cap (fst st) < length stack' /\ imax < Nat.max (cap (fst st) * 2) (length stack') * Nat.max 1 size) \/
      exists st', c = Ret (st', Ret rhs') /\ inv (rev stack') st' /\ undropped st' /\
        cap (fst st') = (if length stack' <=? cap (fst st) then cap (fst st) else Nat.max (cap (fst st) * 2) (length stack')) /\
        count st' = (if length stack' <=? cap (fst st) then 0 else 1) + count st) /\
    (size = 0 -> cap (fst st) < length stack' -> Nat.max (cap (fst st) * 2) (length stack') <= imax -> c = UB).

  Lemma undropped_perm st st' : undropped st -> Permutation (dropped (log (snd st))) (dropped (log (snd st'))) -> undropped st'.
  Proof. unfold undropped. intros -> P. now apply Permutation_nil in P. Qed.

  Lemma insert_ok o t : forall stack st rhs n, inv (rev stack) st -> undropped st -> length stack < n ->
    match insert stack rhs o t with
    | Ret (stack', rhs') => inserted (insertm n st rhs o t) st stack' rhs'
    | Panic => exists st' stack', insertm n st rhs o t = Ret (st', Panic) /\ inv (rev stack') st' /\ undropped st' /\ count st' = count st
    | _ => False
    end.
  Proof.
    induction stack as [|[lhs lo] stack IH]; intros st rhs [|n] Hi Hd Hn; try (cbn in Hn; lia); cbn [insert_loop insert_mem].
    - destruct (pop_cases _ _ _ _ _ Hi) as [(_ & ->)|(vs0 & v & sv & E & _)]; [|destruct vs0; discriminate].
      cbn [bind fst snd]. assert (X : ((fst st, snd st) = st)) by (destruct st; reflexivity). change (ShortVec (Expr * Op) * mem (Expr * Op))%type with (vector (Expr := Expr) (Op := Op)) in *.
      destruct (inv_len [] st Hi) as (_ & _ & C4). split.
      + intros _. right. destruct (push_cases _ _ _ [] st (rhs, o) Hi) as [(_ & C & _)|(st' & -> & I' & C' & A' & P')].
        * right. cbn. unfold inline in *. lia.
        * exfalso. cbn in C. unfold inline in *. lia.
        * cbn [bind]. exists st'. split; [reflexivity|]. split; [exact I'|]. split; [eapply undropped_perm; eauto|]. split; [exact C'|exact A'].
      + intros _ C. cbn in C. unfold inline in *. lia.
    - destruct (pop_cases _ _ _ _ _ Hi) as [(E & _)|(vs0 & v & sv & E & -> & I1 & C1)]; [cbn in E; destruct (rev stack); discriminate|].
      cbn [rev] in E. apply app_inj_tail in E. destruct E as (<- & <-). cbn [bind fst snd].
      destruct (inv_len _ _ Hi) as (_ & C4 & _). cbn [length] in C4, Hn.
      assert (Hnx : next_precedence usize_max overflow_checks lo = Panic \/ exists k, next_precedence usize_max overflow_checks lo = Ret k).
      { unfold next_precedence. destruct (associativity lo); eauto. destruct (_ <? _); eauto. destruct overflow_checks; eauto. }
      destruct Hnx as [->|(k & ->)]; cbn [bind].
      + exists (sv, snd st), stack. auto.
      + destruct (k <=? precedence o).
        * destruct (push_cases _ _ _ (rev stack) (sv, snd st) (lhs, lo) I1) as [(_ & C & _)|(st1 & E1 & I2 & C2 & A2 & P2)].
          { right. cbn [fst]. rewrite rev_length, C1. lia. }
          { exfalso. cbn [fst] in C. rewrite rev_length, C1 in C. lia. }
          cbn [fst snd] in E1, C2, A2, P2. rewrite E1. cbn [bind].
          rewrite rev_length, C1, (proj2 (Nat.leb_le (length stack + 1) (cap (fst st))) ltac:(lia)) in C2.
          rewrite rev_length, C1, (proj2 (Nat.leb_le (length stack + 1) (cap (fst st))) ltac:(lia)) in A2. cbn in A2.
          assert (L2 : length (rev stack ++ [(lhs, lo)]) + 1 = length ((rhs, o) :: (lhs, lo) :: stack)).
          { rewrite app_length, rev_length. cbn. lia. }
          unfold inserted. split.
          -- intros Hs. destruct (push_cases _ _ _ _ st1 (rhs, o) I2) as [(-> & C & Q)|(st' & -> & I' & C' & A' & P')].
             ++ rewrite L2, C2. exact Hs.
             ++ left. rewrite L2, C2 in *. auto.
             ++ right. cbn [bind]. rewrite L2, C2 in *. exists st'. split; [reflexivity|]. split; [exact I'|].
                split; [eapply undropped_perm; [|exact P']; eapply undropped_perm; [|exact P2]; exact Hd|]. split; [exact C'|].
                unfold count in *. rewrite A'. f_equal. exact A2.
          -- intros Hs C Q. pose proof I2 as I3. rewrite Hs in I3 |- *. rewrite <- L2 in *.
             rewrite (zst_spills inline imax _ st1 (rhs, o) I3); [reflexivity| |].
             ++ rewrite C2. rewrite app_length, rev_length in *. cbn [length] in *. lia.
             ++ rewrite C2. exact Q.
        * specialize (IH (sv, snd st) (from_bin lhs lo rhs) n I1 Hd ltac:(lia)).
          destruct (insert stack (from_bin lhs lo rhs) o t) as [[stack' rhs']| | |]; auto.
          unfold inserted in *. cbn [fst snd] in IH. rewrite C1 in IH. exact IH.
  Qed.

  Lemma reduce_ok : forall stack st rhs n, inv (rev stack) st -> length stack < n ->
    exists sv, reduce_mem from_bin n st rhs = Ret ((sv, snd st), reduce_all from_bin stack rhs) /\ inv [] (sv, snd st).
  Proof.
    induction stack as [|[lhs lo] stack IH]; intros st rhs [|n] Hi Hn; try (cbn in Hn; lia); cbn [reduce_mem reduce_all].
    - destruct (pop_cases _ _ _ _ _ Hi) as [(_ & ->)|(vs0 & v & sv & E & _)]; [|destruct vs0; discriminate].
      cbn [bind fst snd]. exists (fst st). split; [reflexivity|]. destruct st. exact Hi.
    - destruct (pop_cases _ _ _ _ _ Hi) as [(E & _)|(vs0 & v & sv & E & -> & I1 & C1)]; [cbn in E; destruct (rev stack); discriminate|].
      cbn [rev] in E. apply app_inj_tail in E. destruct E as (<- & <-). cbn [bind fst snd]. cbn [length] in Hn.
      exact (IH (sv, snd st) (from_bin lhs lo rhs) n I1 ltac:(lia)).
  Qed.

  (** Leaving. *)
  Definition left_behind (M : mem (Expr * Op)) st (entries : list (Expr * Op)) : Prop :=
    all_freed M /\ length (allocated (log M)) = count st /\ dropped (log M) = entries.

  Lemma leave_ok stack st (r : ans) : inv (rev stack) st -> undropped st ->
    exists M, leave st r = Ret (M, r) /\ left_behind M st (rev stack).
  Proof.
    intros Hi Hd. destruct (drop_ok inline size imax (rev stack) st Hi) as (M & E & D1 & D2 & D3 & D4 & D5).
    exists M. unfold M_BinExprMem.leave. rewrite E. split; [reflexivity|]. unfold left_behind, all_freed, count. rewrite D3. unfold undropped in Hd. rewrite Hd in D1.
    rewrite D3 in D2, D4. auto.
  Qed.
  Lemma finish_ok stack st rhs why (rest : S) : inv (rev stack) st -> undropped st ->
    exists M, finish from_bin size imax (S := S) (A := A) (TE := TE) (OE := OE) st rhs why rest = Ret (M, done (reduce_all from_bin stack rhs, why) rest) /\ left_behind M st [].
  Proof.
    intros Hi Hd. destruct (inv_len _ _ Hi) as (L & _). unfold finish.
    destruct (reduce_ok stack st rhs (Datatypes.S (len (fst st))) Hi ltac:(lia)) as (sv & -> & I1). cbn [bind fst snd].
    destruct (leave_ok [] (sv, snd st) (done (reduce_all from_bin stack rhs, why) rest) I1 Hd) as (M & -> & H). exists M. split; auto.
  Qed.

  Definition ends_well (M : mem (Expr * Op)) st stack (r : ans) : Prop :=
    left_behind M st (match r with Ret (Ok _ _) => [] | _ => rev stack end).

  (** The last round: no operator and term follow. *)
  Lemma last_ok prec fuel stack st rhs (rest : S) : inv (rev stack) st -> undropped st ->
    (forall o m t r, parse op rest = Ret (Ok o m) -> prec <= precedence o -> parse term m = Ret (Ok t r) -> False) ->
    exists M, loopm (Datatypes.S fuel) term op prec st rhs rest = Ret (M, loop (Datatypes.S fuel) term op prec stack rhs rest) /\
      ends_well M st stack (loop (Datatypes.S fuel) term op prec stack rhs rest).
  Proof.
    intros Hi Hd Hl. unfold ends_well. cbn [bin_loop_mem bin_loop].
    assert (LV : forall r : ans, (forall x y, r <> Ret (Ok x y)) -> exists M, leave st r = Ret (M, r) /\ left_behind M st (match r with Ret (Ok _ _) => [] | _ => rev stack end)).
    { intros r Hr. destruct (leave_ok stack st r Hi Hd) as (M & E & G). exists M. split; auto. destruct r as [[]| | |]; auto. now destruct (Hr o s). }
    assert (FN : forall why rest', exists M, finish from_bin size imax st rhs why rest' = Ret (M, done (reduce_all from_bin stack rhs, why) rest') /\
      left_behind M st (match (done (reduce_all from_bin stack rhs, why) rest' : ans) with Ret (Ok _ _) => [] | _ => rev stack end)).
    { intros why rest'. exact (finish_ok stack st rhs why rest' Hi Hd). }
    assert (RW : forall r a why, exists M, during size imax st (rewind r a) (fun rest' => finish from_bin size imax st rhs why rest') =
      Ret (M, rest' <- rewind r a ;; done (reduce_all from_bin stack rhs, why) rest') /\
      left_behind M st (match (rest' <- rewind r a ;; done (reduce_all from_bin stack rhs, why) rest' : ans) with Ret (Ok _ _) => [] | _ => rev stack end)).
    { intros r a why. unfold during. destruct (rewind r a); cbn [bind]; auto; apply LV; discriminate. }
    unfold during at 1. destruct (parse op rest) as [[o m|e m]| | |] eqn:Eo; cbn [bind]; try (apply LV; discriminate).
    - destruct (prec <=? precedence o) eqn:Ep; [|apply FN].
      unfold during at 1. destruct (parse term m) as [[t r|e r]| | |] eqn:Et; cbn [bind]; try (apply LV; discriminate).
      + exfalso. apply Nat.leb_le in Ep. eapply Hl; eauto.
      + destruct (should_terminate e); cbn [negb]; [apply LV; discriminate|apply RW].
    - destruct (should_terminate e); [apply LV; discriminate|apply RW].
  Qed.

  (** ** Any parsers, any inputs *)
  Lemma loop_same prec : 0 < size -> forall fuel stack st rhs (rest : S), inv (rev stack) st -> undropped st ->
    match loopm fuel term op prec st rhs rest with
    | Ret (M, r) => r = loop fuel term op prec stack rhs rest /\ all_freed M /\
        match r with Ret (Ok _ _) => dropped (log M) = [] | _ => True end
    | Panic => imax < 2 * (length stack + fuel) * size
    | _ => False
    end.
  Proof.
    intros Hs. induction fuel as [|fuel IH]; intros stack st rhs rest Hi Hd.
    - cbn [bin_loop_mem bin_loop]. destruct (leave_ok stack st OutOfFuel Hi Hd) as (M & -> & H1 & _). auto.
    - assert (D : (exists o m t r, parse op rest = Ret (Ok o m) /\ prec <= precedence o /\ parse term m = Ret (Ok t r)) \/
        forall o m t r, parse op rest = Ret (Ok o m) -> prec <= precedence o -> parse term m = Ret (Ok t r) -> False).
      { destruct (parse op rest) as [[o m|e m]| | |]; try (right; intros; discriminate).
        destruct (le_lt_dec prec (precedence o)); [|right; intros o' m' t r E; injection E as <- <-; lia].
        destruct (parse term m) as [[t r|e r]| | |] eqn:Et; try (right; intros o' m' t' r' E; injection E as <- <-; rewrite Et; discriminate).
        left. exists o, m, t, r. auto. }
      destruct D as [(o & m & t & r & Eo & Ep & Et)|D].
      + cbn [bin_loop_mem bin_loop]. unfold during. rewrite Eo. cbn [bind]. rewrite (proj2 (Nat.leb_le _ _) Ep), Et. cbn [bind].
        destruct (inv_len _ _ Hi) as (L & C & C4).
        pose proof (insert_ok o (from_term t) stack st rhs (Datatypes.S (len (fst st))) Hi Hd ltac:(lia)) as G.
        assert (LE : forall stack' rhs', insert stack rhs o (from_term t) = Ret (stack', rhs') -> length stack' <= length stack + 1).
        { clear. revert rhs. induction stack as [|[l q] stack IH]; intros rhs stack' rhs'; cbn [insert_loop]; [intros E; injection E as <- <-; cbn; lia|].
          destruct (next_precedence usize_max overflow_checks q); cbn [bind]; try discriminate.
          destruct (_ <=? _); [intros E; injection E as <- <-; cbn; lia|]. intros E. apply IH in E. cbn. lia. }
        destruct (insert stack rhs o (from_term t)) as [[stack' rhs']| | |] eqn:Ei; try contradiction; cbn [bind].
        * specialize (LE _ _ eq_refl). destruct G as (G & _). destruct (G (or_introl Hs)) as [(-> & C' & Q)|(st' & -> & I' & D' & _)]; cbn [bind].
          -- rewrite (Nat.max_r 1 size) in Q by lia.
             assert (Nat.max (cap (fst st) * 2) (length stack') <= 2 * (length stack + Datatypes.S fuel)) by lia.
             eapply Nat.lt_le_trans; [exact Q|]. now apply Nat.mul_le_mono_r.
          -- cbn [fst snd]. specialize (IH stack' st' rhs' r I' D').
             destruct (loopm fuel term op prec st' rhs' r) as [[M x]| | |]; auto.
             eapply Nat.lt_le_trans; [exact IH|]. apply Nat.mul_le_mono_r. lia.
        * destruct G as (st' & stack' & -> & I' & D' & _). cbn [bind fst snd].
          destruct (leave_ok stack' st' Panic I' D') as (M & -> & H1 & _). auto.
      + destruct (last_ok prec fuel stack st rhs rest Hi Hd D) as (M & -> & H1 & _ & H2). split; auto. split; auto.
        destruct (loop (Datatypes.S fuel) term op prec stack rhs rest) as [[]| | |]; auto.
  Qed.

  (** ** The operators that wait *)
  Lemma yields_trans (a b c : Op) : yields_to a b = true -> yields_to b c = true -> yields_to a c = true.
  Proof.
    unfold yields_to. destruct (associativity a), (associativity b); rewrite ?Nat.ltb_lt, ?Nat.leb_le; lia.
  Qed.

  Lemma waiting_snoc (os : list Op) o : waiting (os ++ [o]) = filter (fun p => yields_to p o) (waiting os) ++ [o].
  Proof.
    induction os as [|p os IH]; [reflexivity|]. cbn. rewrite forallb_app, IH. cbn. rewrite andb_true_r.
    destruct (forallb (yields_to p) os); cbn; [|reflexivity]. destruct (yields_to p o); reflexivity.
  Qed.

  (** On the stack (top first) all below yield to what is above. *)
  Fixpoint stacked (l : list Op) : Prop :=
    match l with
    | [] => True
    | o :: l => Forall (fun p => yields_to p o = true) l /\ stacked l
    end.

  Lemma stacked_rev_waiting (os : list Op) : stacked (rev (waiting os)).
  Proof.
    induction os as [|o os IH] using rev_ind; [exact Logic.I|]. rewrite waiting_snoc, rev_app_distr. cbn. split.
    - apply Forall_forall. intros p Hp. apply in_rev, filter_In in Hp. apply Hp.
    - clear - IH. assert (K : forall l : list Op, stacked l -> stacked (filter (fun p => yields_to p o) l)).
      { induction l as [|p l IHl]; cbn; auto. intros (F & G). destruct (yields_to p o); auto. split; auto.
        apply Forall_forall. intros q Hq. apply filter_In in Hq. rewrite Forall_forall in F. now apply F. }
      specialize (K _ IH). replace (rev (filter (fun p => yields_to p o) (waiting os))) with (filter (fun p => yields_to p o) (rev (waiting os))); auto.
      generalize (waiting os). induction l as [|p l IHl]; cbn; auto. rewrite filter_app, IHl. cbn. destruct (yields_to p o); cbn; auto using app_nil_r.
  Qed.

  Notation in_range := (in_range usize_max).

  Lemma insert_waits o t : forall stack rhs, Forall in_range (map snd stack) -> stacked (map snd stack) ->
    exists stack' rhs', insert stack rhs o t = Ret (stack', rhs') /\
      map snd stack' = o :: filter (fun p => yields_to p o) (map snd stack).
  Proof.
    induction stack as [|[lhs lo] stack IH]; intros rhs F G; cbn [insert_loop map filter snd].
    - exists [(rhs, o)], t. auto.
    - inversion F as [|? ? F1 F2]; subst. destruct G as (G1 & G2).
      assert (N1 : exists k, next_precedence usize_max overflow_checks lo = Ret k /\ (k <=? precedence o) = yields_to lo o).
      { unfold next_precedence, yields_to, L_BinExpr.in_range in *. cbn in *. destruct (associativity lo).
        - rewrite (proj2 (Nat.ltb_lt _ _) (F1 eq_refl)). eexists. split; [reflexivity|]. rewrite Nat.add_1_r. reflexivity.
        - eexists. split; reflexivity. }
      destruct N1 as (k & -> & Ek). cbn [bind]. rewrite Ek. destruct (yields_to lo o) eqn:Y.
      + exists ((rhs, o) :: (lhs, lo) :: stack), t. split; [reflexivity|]. cbn. do 2 f_equal. symmetry.
        assert (Z : Forall (fun p => yields_to p o = true) (map snd stack)).
        { eapply Forall_impl; [|exact G1]. intros p Hp. exact (yields_trans p lo o Hp Y). }
        clear - Z. induction Z as [|p l Hp Hl IHl]; cbn; auto. rewrite Hp. now f_equal.
      + destruct (IH (from_bin lhs lo rhs) F2 G2) as (stack' & rhs' & E & M). eauto.
  Qed.

  (** ** Along a chain *)
  Notation pairs := (many (sequence (behaves (parse op)) (behaves (parse term)))).

  Definition follows stack (os : list Op) : Prop := map snd stack = rev (waiting os).

  Lemma follows_len stack os : follows stack os -> length stack = length (waiting os).
  Proof. intros F. rewrite <- (map_length snd stack), F, rev_length. reflexivity. Qed.

  Lemma waiting_in (os : list Op) o : In o (waiting os) -> In o os.
  Proof. induction os as [|p os IH]; cbn; auto. destruct (forallb _ _); cbn; intuition. Qed.

  Lemma follows_insert stack os rhs o t : follows stack os -> Forall in_range os ->
    exists stack' rhs', insert stack rhs o t = Ret (stack', rhs') /\ follows stack' (os ++ [o]).
  Proof.
    intros F R. destruct (insert_waits o t stack rhs) as (stack' & rhs' & E & M).
    - rewrite F. apply Forall_forall. intros p Hp. apply in_rev, waiting_in in Hp. rewrite Forall_forall in R. now apply R.
    - rewrite F. apply stacked_rev_waiting.
    - exists stack', rhs'. split; auto. unfold follows. rewrite M, waiting_snoc, rev_app_distr, F. cbn. f_equal.
      generalize (waiting os). induction l as [|p l IHl]; cbn; auto. rewrite filter_app, IHl. cbn. destruct (yields_to p o); cbn; auto using app_nil_r.
  Qed.

  (** Heights of the stack while the pairs are read after [os]. *)
  Definition low (k : nat) (os qs : list Op) : Prop := forall a b, qs = a ++ b -> length (waiting (os ++ a)) <= k.

  Lemma low_cons k os o qs : length (waiting os) <= k -> low k (os ++ [o]) qs -> low k os (o :: qs).
  Proof.
    intros L H [|x a] b E; cbn in E; [now rewrite app_nil_r|]. injection E as -> E. specialize (H a b E). now rewrite <- app_assoc in H.
  Qed.
  Lemma low_tail k os o qs : low k os (o :: qs) -> low k (os ++ [o]) qs.
  Proof. intros H a b E. rewrite <- app_assoc. apply (H (o :: a) b). cbn. congruence. Qed.
  Lemma low_dec k qs : forall os, low k os qs \/ exists a b, qs = a ++ b /\ k < length (waiting (os ++ a)).
  Proof.
    induction qs as [|o qs IH]; intros os; (destruct (le_lt_dec (length (waiting os)) k) as [L|L]; [|right; exists []; eexists; split; [reflexivity|now rewrite app_nil_r]]).
    - left. intros [|x a] b E; [now rewrite app_nil_r|discriminate].
    - destruct (IH (os ++ [o])) as [H|(a & b & -> & H)]; [left; now apply low_cons|].
      right. exists (o :: a), b. rewrite <- app_assoc in H. auto.
  Qed.

  (** The vector has allocated iff it has outgrown the inline space. *)
  Definition spilt st : Prop := inline <= cap (fst st) /\ (cap (fst st) = inline <-> count st = 0).

  Lemma chain_mem m ps r : pairs m ps r -> Forall in_range (map fst ps) ->
    forall bound os stack st rhs, inv (rev stack) st -> undropped st -> spilt st -> follows stack os -> Forall in_range os ->
    low bound os (map fst ps) ->
    bound <= cap (fst st) \/ (0 < size /\ Nat.max (cap (fst st)) (2 * bound) * size <= imax) ->
    exists stack' st' rhs', (forall fuel, loopm (length ps + fuel) term op 0 st rhs m = loopm fuel term op 0 st' rhs' r) /\
      (forall fuel, loop (length ps + fuel) term op 0 stack rhs m = loop fuel term op 0 stack' rhs' r) /\
      inv (rev stack') st' /\ undropped st' /\ spilt st' /\ follows stack' (os ++ map fst ps) /\
      (low (cap (fst st)) os (map fst ps) -> cap (fst st') = cap (fst st)) /\ cap (fst st) <= cap (fst st') /\ low (cap (fst st')) os (map fst ps).
  Proof.
    intros Hm. induction Hm as [m|m [o t] q ps r Hp Hm IH]; intros HR bound os stack st rhs Hi Hd Hj Hf Ho Hl Hb.
    - exists stack, st, rhs. split; [reflexivity|]. split; [reflexivity|]. split; [auto|]. split; [auto|]. split; [auto|]. cbn. rewrite app_nil_r.
      split; [auto|]. split; [auto|]. split; [auto|]. intros [|x a] b E; [|discriminate]. rewrite app_nil_r, <- (follows_len _ _ Hf). now apply inv_len in Hi.
    - cbn [map fst] in HR. inversion HR as [|? ? HR1 HR2]; subst.
      inversion Hp as [? ? mid ? ? E1 E2| | | | | |]; subst. unfold behaves in E1, E2.
      destruct (follows_insert stack os rhs o (from_term t) Hf Ho) as (stack1 & rhs1 & Ei & Hf1).
      destruct (inv_len _ _ Hi) as (L & C & C4).
      pose proof (insert_ok o (from_term t) stack st rhs (Datatypes.S (len (fst st))) Hi Hd ltac:(lia)) as G. rewrite Ei in G. destruct G as (G & _).
      cbn [map fst] in Hl. pose proof (low_tail _ _ _ _ Hl) as Hl'.
      assert (L1 : length stack1 <= bound). { rewrite (follows_len _ _ Hf1). specialize (Hl' [] (map fst ps) eq_refl). now rewrite app_nil_r in Hl'. }
      destruct G as [(_ & C1 & Q)|(st1 & Em & I1 & D1 & C1 & A1)].
      + destruct Hb as [Hb|(Hb & _)]; [right; lia|auto].
      + exfalso. destruct Hb as [Hb|(Hb & Q')]; [lia|]. rewrite (Nat.max_r 1 size) in Q by lia.
        assert (Nat.max (cap (fst st) * 2) (length stack1) * size <= Nat.max (cap (fst st)) (2 * bound) * size) by (apply Nat.mul_le_mono_r; lia). lia.
      + assert (Hj1 : spilt st1).
        { destruct Hj as (J1 & J2). unfold spilt. rewrite C1, A1. destruct (length stack1 <=? cap (fst st)) eqn:Y; [cbn; auto|].
          apply Nat.leb_gt in Y. split; [lia|]. cbn. split; [unfold inline in *; lia|discriminate]. }
        assert (Ho1 : Forall in_range (os ++ [o])) by (apply Forall_app; auto).
        destruct (IH HR2 bound (os ++ [o]) stack1 st1 rhs1 I1 D1 Hj1 Hf1 Ho1 Hl') as (stack' & st' & rhs' & Z1 & Z2 & Z3 & Z4 & Z5 & Z6 & Z7 & Z8 & Z9).
        * rewrite C1. destruct (length stack1 <=? cap (fst st)) eqn:Y; [auto|]. apply Nat.leb_gt in Y.
          destruct Hb as [Hb|(Hb & Q')]; [lia|]. right. split; auto. eapply Nat.le_trans; [|exact Q']. apply Nat.mul_le_mono_r. lia.
        * exists stack', st', rhs'. split; [|split; [|split; [auto|split; [auto|split; [auto|split; [|split; [|split]]]]]]].
          -- intros fuel. rewrite <- Z1. cbn [length Nat.add bin_loop_mem]. unfold during. rewrite E1. cbn [bind]. rewrite (proj2 (Nat.leb_le 0 _) (Nat.le_0_l _)), E2, Em.
             reflexivity.
          -- intros fuel. rewrite <- Z2. cbn [length Nat.add bin_loop]. rewrite E1. cbn [bind]. rewrite (proj2 (Nat.leb_le 0 _) (Nat.le_0_l _)), E2. cbn [bind]. rewrite Ei. reflexivity.
          -- cbn [map fst]. rewrite <- app_assoc in Z6. exact Z6.
          -- intros K. cbn [map fst] in K. apply low_tail in K.
             assert (L2 : length stack1 <= cap (fst st)). { rewrite (follows_len _ _ Hf1). specialize (K [] (map fst ps) eq_refl). now rewrite app_nil_r in K. }
             rewrite (proj2 (Nat.leb_le _ _) L2) in C1. rewrite Z7; rewrite C1; auto.
          -- rewrite C1 in Z8. destruct (length stack1 <=? cap (fst st)); lia.
          -- cbn [map fst]. apply low_cons; auto. rewrite <- (follows_len _ _ Hf).
             rewrite C1 in Z8. destruct (length stack1 <=? cap (fst st)); lia.
  Qed.

  Lemma loop_reason : forall fuel stack rhs rest e x s, loop fuel term op 0 stack rhs rest <> Ret (Ok (e, ROk x) s).
  Proof.
    induction fuel as [|fuel IH]; intros stack rhs rest e x s; cbn [bin_loop]; [discriminate|].
    destruct (parse op rest) as [[o m|f m]| | |]; cbn [bind]; try discriminate.
    - rewrite (proj2 (Nat.leb_le 0 _) (Nat.le_0_l _)). destruct (parse term m) as [[t r|f r]| | |]; cbn [bind]; try discriminate.
      + destruct (insert stack rhs o (from_term t)) as [[stack' rhs']| | |]; cbn [bind]; try discriminate. apply IH.
      + destruct (should_terminate f); cbn [negb]; [discriminate|]. destruct (rewind r _); discriminate.
    - destruct (should_terminate f); [discriminate|]. destruct (rewind m _); discriminate.
  Qed.

  (** Zero-sized entries: the first operator too many. *)
  Lemma chain_zst m ps r : size = 0 -> 2 * inline <= imax -> pairs m ps r -> Forall in_range (map fst ps) ->
    forall os stack st rhs fuel, inv (rev stack) st -> undropped st -> cap (fst st) = inline -> follows stack os -> Forall in_range os ->
    (exists a b, map fst ps = a ++ b /\ inline < length (waiting (os ++ a))) ->
    loopm (length ps + fuel) term op 0 st rhs m = UB.
  Proof.
    intros Z' Q Hm. assert (Z : size <= 0) by lia. clear Z'. induction Hm as [m|m [o t] q ps r Hp Hm IH]; intros HR os stack st rhs fuel Hi Hd Hc Hf Ho (a & b & E & K);
      destruct (inv_len _ _ Hi) as (L & C & C4); rewrite (follows_len _ _ Hf) in C.
    - destruct a; [|discriminate]. rewrite app_nil_r in K. lia.
    - cbn [map fst] in HR, E. inversion HR as [|? ? HR1 HR2]; subst.
      inversion Hp as [? ? mid ? ? E1 E2| | | | | |]; subst. unfold behaves in E1, E2.
      destruct (follows_insert stack os rhs o (from_term t) Hf Ho) as (stack1 & rhs1 & Ei & Hf1).
      pose proof (insert_ok o (from_term t) stack st rhs (Datatypes.S (len (fst st))) Hi Hd) as G. rewrite Ei in G.
      rewrite (follows_len _ _ Hf) in L, G. destruct (G ltac:(lia)) as (G1 & G2). clear G.
      cbn [length Nat.add bin_loop_mem]. unfold during. rewrite E1, (proj2 (Nat.leb_le 0 _) (Nat.le_0_l _)), E2.
      assert (L1 : length stack1 <= Datatypes.S (length (waiting os))).
      { rewrite (follows_len _ _ Hf1), waiting_snoc, app_length. cbn. rewrite Nat.add_1_r. apply le_n_S.
        generalize (waiting os). induction l as [|x l IHl]; cbn; auto. destruct (yields_to x o); cbn; lia. }
      destruct (le_lt_dec (length stack1) inline) as [Y|Y].
      + assert (Y' : length stack1 <= cap (fst st)) by (rewrite Hc; exact Y).
        destruct (G1 (or_intror Y')) as [(_ & X & _)|(st1 & -> & I1 & D1 & C1 & _)]; [lia|]. cbn [bind fst snd].
        rewrite (proj2 (Nat.leb_le (length stack1) (cap (fst st)))) in C1 by lia.
        apply (IH HR2 (os ++ [o]) stack1 st1 rhs1 fuel); auto; [congruence|apply Forall_app; auto|].
        destruct a as [|x a]; [rewrite app_nil_r in K; lia|]. cbn in E. injection E as -> E. exists a, b. rewrite <- app_assoc. auto.
      + rewrite G2; [reflexivity|lia|lia|]. unfold inline in *. lia.
  Qed.

  Lemma new_ok : inline <= imax -> exists st, new inline size imax (@mem_empty (Expr * Op)) = Ret st /\ inv [] st /\ undropped st /\
    spilt st /\ cap (fst st) = inline.
  Proof.
    intros H. destruct (with_capacity_ok inline size imax (@mem_empty (Expr * Op)) 0 eq_refl eq_refl) as (st & E & I1 & C & D & Lg).
    - left. lia.
    - lia.
    - exists st. split; [exact E|]. split; [auto|]. split; [exact D|]. rewrite Nat.max_0_r in C. split; [|auto].
      split; [lia|]. unfold count. rewrite (Lg ltac:(unfold inline; lia)). tauto.
  Qed.

  (** Operators to the left only: as many wait as there are precedences. *)
  Lemma left_low (os : list Op) (levels : list nat) :
    Forall (fun o => associativity o = Left /\ In (precedence o) levels) os -> length (waiting os) <= length levels.
  Proof.
    intros F. rewrite <- (map_length precedence (waiting os)). apply NoDup_incl_length.
    - assert (G : Forall (fun o => associativity o = Left) (waiting os)).
      { apply Forall_forall. intros o Ho. apply waiting_in in Ho. rewrite Forall_forall in F. now apply F. }
      pose proof (stacked_rev_waiting os) as K. apply NoDup_rev in K || idtac.
      assert (X : NoDup (map precedence (rev (waiting os)))).
      { apply Forall_rev in G. revert G K. generalize (rev (waiting os)). clear. induction l as [|o l IH]; cbn; intros G K; constructor.
        - destruct K as (K & _). intros I1. apply in_map_iff in I1. destruct I1 as (p & E & I1). rewrite Forall_forall in K, G.
          specialize (K p I1). unfold yields_to in K. rewrite (G p (or_intror I1)) in K. apply Nat.ltb_lt in K. lia.
        - inversion G; subst. apply IH; tauto. }
      rewrite map_rev in X. apply NoDup_rev in X. now rewrite rev_involutive in X.
    - intros p Hp. apply in_map_iff in Hp. destruct Hp as (o & <- & Ho). apply waiting_in in Ho. rewrite Forall_forall in F. now apply F.
  Qed.
End Run.

(** ** The operators that wait are those on the right edge of the tree *)
Section Spine.
  Context {T Op : Type} {OP : Operator Op}.

  Lemma yields_right (p o : Op) : yields_to p o = true <-> right_ok o p.
  Proof. unfold yields_to, right_ok. destruct (associativity p) eqn:E; rewrite ?Nat.ltb_lt, ?Nat.leb_le;
    destruct (lt_eq_lt_dec (precedence p) (precedence o)) as [[?|?]|?]; intuition (try lia; try congruence). Qed.
  Lemma yields_left (p o : Op) : left_ok p o -> yields_to p o = false.
  Proof. intros L. destruct (yields_to p o) eqn:Y; auto. apply yields_right in Y. destruct (ok_exclusive _ _ L Y). Qed.

  Lemma waiting_app (a : list Op) o b : Forall (fun p => yields_to p o = false) a -> waiting (a ++ o :: b) = waiting (o :: b).
  Proof.
    induction 1 as [|p a Hp Ha IH]; [reflexivity|]. cbn [app waiting]. rewrite IH, forallb_app. cbn [forallb]. rewrite Hp.
    cbn. now rewrite andb_false_r.
  Qed.

  Lemma spine_waits (tr : tree T Op) : respects tr -> right_edge tr = waiting (map fst (snd (reading tr))).
  Proof.
    induction tr as [x|l _ o r IH]; intros R; [reflexivity|]. cbn [reading snd right_edge respects] in *. destruct R as (R1 & R2 & R3 & R4).
    rewrite map_app. cbn [map fst]. rewrite waiting_app.
    - cbn [waiting]. rewrite IH by auto.
      assert (F : forallb (yields_to o) (map fst (snd (reading r))) = true).
      { apply forallb_forall. intros p Hp. apply in_map_iff in Hp. destruct Hp as (q & <- & Hq).
        pose proof (respects_right _ _ R2 R4) as G. rewrite Forall_forall in G. apply yields_right. now apply G. }
      now rewrite F.
    - pose proof (respects_left _ _ R1 R3) as G. apply Forall_forall. intros p Hp. apply in_map_iff in Hp. destruct Hp as (q & <- & Hq).
      rewrite Forall_forall in G. apply yields_left. now apply G.
  Qed.
End Spine.
