(** * L_Peg: the combinators have PEG semantics. *)
From Verif Require Export S_Peg L_Comb L_Seq L_Prim.

Local Arguments slice_rewind : simpl never.

Section Peg.
  Context {T : Type} (eqb : T -> T -> bool) (rules : nat -> gexp T).
  Hypothesis eqb_ok : decides_eq eqb.

  Notation run fuel e := (parse (parser_of eqb rules fuel e)).
  Implicit Types (s : slice T).

  (** ** One level of the parser *)
  Lemma map_both {O E U V} (p : dparser (slice T) O E) (f : O -> U) (g : E -> V) s :
    parse (MapErr (Map p f) g) s =
    r <- parse p s ;; match r with Ok x s' => Ret (Ok (f x) s') | Err e s' => Ret (Err (g e) s') end.
  Proof.
    cbn. unfold map_err_parse. cbn. unfold map_parse. destruct (parse p s) as [[]| | |]; reflexivity.
  Qed.
  Lemma run_any fuel s : run fuel GAny s =
    r <- parse any_item s ;; match r with Ok x s' => Ret (Ok (TItem x) s') | Err _ s' => Ret (Err EMiss s') end.
  Proof.
    transitivity (parse (MapErr (Map any_item TItem) flatten) s); [destruct fuel; reflexivity|].
    rewrite map_both. now destruct (parse any_item s) as [[|[]]| | |].
  Qed.
  Lemma run_the fuel x s : run fuel (GThe x) s =
    r <- parse (the_item eqb x) s ;; match r with Ok _ s' => Ret (Ok TUnit s') | Err _ s' => Ret (Err EMiss s') end.
  Proof.
    transitivity (parse (MapErr (Map (the_item eqb x) (fun _ => TUnit : gtree T)) flatten) s); [destruct fuel; reflexivity|].
    rewrite map_both. now destruct (parse (the_item eqb x) s) as [[|[]]| | |].
  Qed.
  Lemma run_atom fuel p s : let SG := list_segment eqb in run fuel (GAtom p) s =
    r <- parse (atom p) s ;; match r with Ok _ s' => Ret (Ok TUnit s') | Err _ s' => Ret (Err EMiss s') end.
  Proof.
    intros SG.
    transitivity (parse (MapErr (Map (atom p) (fun _ => TUnit : gtree T)) flatten) s); [destruct fuel; reflexivity|].
    rewrite map_both. now destruct (parse (atom p) s) as [[|[]]| | |].
  Qed.
  Lemma run_join fuel a b s : run fuel (GJoin a b) s =
    ra <- run fuel a s ;;
    match ra with
    | Ok x m => rb <- run fuel b m ;; match rb with Ok y r => Ret (Ok (TPair x y) r) | Err e r => Ret (Err e r) end
    | Err e r => Ret (Err e r)
    end.
  Proof.
    transitivity (parse (MapErr (Map (Join (parser_of eqb rules fuel a) (parser_of eqb rules fuel b)) (fun '(x, y) => TPair x y)) flatten) s);
      [destruct fuel; reflexivity|].
    rewrite map_both. cbn [parse Join]. unfold join_parse.
    destruct (run fuel a s) as [[x m|[] m]| | |]; cbn [bind fail]; try reflexivity.
    destruct (run fuel b m) as [[? ?|[] ?]| | |]; reflexivity.
  Qed.
  Lemma run_or fuel a b s : run fuel (GOr a b) s =
    ra <- run fuel a s ;;
    match ra with
    | Ok x r => Ret (Ok (TFirst x) r)
    | Err EFatal r => Ret (Err EFatal r)
    | Err EMiss r =>
        s' <- slice_rewind false r s ;; rb <- run fuel b s' ;;
        match rb with Ok y r => Ret (Ok (TLast y) r) | Err e r => Ret (Err e r) end
    end.
  Proof.
    transitivity (parse (MapErr (Map (Or (parser_of eqb rules fuel a) (parser_of eqb rules fuel b))
      (fun e => match e with First x => TFirst x | Last x => TLast x end)) flatten) s); [destruct fuel; reflexivity|].
    rewrite map_both. cbn [parse Or]. unfold or_parse.
    destruct (run fuel a s) as [[x m|[] m]| | |]; cbn [bind fail done should_terminate pe_gerr negb]; try reflexivity.
    cbn [rewind anchor slice_rewind_sequence].
    destruct (slice_rewind false m s) as [s'| | |]; cbn [bind]; try reflexivity.
    destruct (run fuel b s') as [[? ?|[] ?]| | |]; reflexivity.
  Qed.
  Lemma run_opt fuel a s : run fuel (GOpt a) s =
    ra <- run fuel a s ;;
    match ra with
    | Ok x r => Ret (Ok (TSome x) r)
    | Err EFatal r => Ret (Err EFatal r)
    | Err EMiss r => s' <- slice_rewind false r s ;; Ret (Ok TNone s')
    end.
  Proof.
    transitivity (parse (Map (Optional (parser_of eqb rules fuel a)) (fun r => match r with ROk x => TSome x | RErr _ => (TNone : gtree T) end)) s);
      [destruct fuel; reflexivity|].
    cbn [parse Map]. unfold map_parse. cbn [parse Optional]. unfold optional_parse.
    destruct (run fuel a s) as [[x m|[] m]| | |]; cbn [bind fail done should_terminate pe_gerr negb]; try reflexivity.
    cbn [rewind anchor slice_rewind_sequence].
    destruct (slice_rewind false m s) as [s'| | |]; reflexivity.
  Qed.
  Lemma run_rep fuel a s : run fuel (GRep a) s =
    r <- repeat_loop fuel (parser_of eqb rules fuel a) [] s ;;
    match r with Ok (l, _) r => Ret (Ok (TMany l) r) | Err e r => Ret (Err e r) end.
  Proof.
    transitivity (parse (Map (Repeat fuel (parser_of eqb rules fuel a)) (fun '(l, _) => TMany l)) s);
      [destruct fuel; reflexivity|].
    cbn [parse Map]. unfold map_parse. cbn [parse Repeat]. unfold repeat_parse.
    destruct (repeat_loop fuel (parser_of eqb rules fuel a) [] s) as [[[] ?|? ?]| | |]; reflexivity.
  Qed.
  Lemma run_cut fuel a s : run fuel (GCut a) s =
    r <- run fuel a s ;; match r with Ok x r => Ret (Ok x r) | Err _ r => Ret (Err EFatal r) end.
  Proof. destruct fuel; reflexivity. Qed.
  Lemma run_ref fuel i s : run fuel (GRef i) s =
    match fuel with 0 => OutOfFuel | Datatypes.S fuel => run fuel (rules i) s end.
  Proof. destruct fuel; reflexivity. Qed.

  (** ** Items *)
  Lemma later_drop (al off : nat) (d1 d2 : list T) : later_slice (Slice al off (d1 ++ d2)) (Slice al (off + length d1) d2).
  Proof. exists d1. auto. Qed.

  Lemma the_slice x al off y (d : list T) : parse (the_item eqb x) (Slice al off (y :: d)) =
    if eqb y x then Ret (Ok tt (Slice al (off + 1) d)) else Ret (Err (MkMiss tt) (Slice al off (y :: d))).
  Proof. cbn. unfold the_item_parse. cbn. destruct (eqb y x); reflexivity. Qed.

  Lemma list_eqb_ok (a b : list T) : list_eqb eqb a b = true <-> a = b.
  Proof.
    revert b. induction a as [|x a IH]; intros [|y b]; cbn; try (split; congruence).
    rewrite Bool.andb_true_iff, (eqb_ok x y), IH. split; [intros (-> & ->); auto|]. intros E. injection E; auto.
  Qed.

  Lemma atom_slice p al off (d : list T) : let SG := list_segment eqb in
    (forall r, d = p ++ r -> parse (atom p) (Slice al off d) = Ret (Ok tt (Slice al (off + length p) r))) /\
    ((forall r, d <> p ++ r) -> parse (atom p) (Slice al off d) = Ret (Err (MkMiss tt) (Slice al off d))).
  Proof.
    cbn. unfold atom_parse. cbn. unfold list_split_at. split.
    - intros r ->. rewrite app_length. rewrite (proj2 (Nat.leb_le _ _)) by lia. cbn.
      rewrite firstn_app, Nat.sub_diag, firstn_all. cbn. rewrite app_nil_r, (proj2 (list_eqb_ok p p) eq_refl).
      unfold slice_advance. cbn. rewrite app_length. rewrite (proj2 (Nat.leb_le _ _)) by lia. cbn.
      now rewrite skipn_app, skipn_all, Nat.sub_diag.
    - intros N. destruct (Nat.leb_spec (length p) (length d)) as [L|L]; cbn.
      + destruct (list_eqb eqb (firstn (length p) d) p) eqn:E; auto. apply list_eqb_ok in E.
        destruct (N (skipn (length p) d)). transitivity (firstn (length p) d ++ skipn (length p) d); [symmetry; apply firstn_skipn|now rewrite E].
      + rewrite (proj2 (Nat.leb_le (length d) (length p))) by lia. cbn.
        destruct (negb (list_eqb eqb d (firstn (length d) p))); reflexivity.
  Qed.

  (** ** The parser does what the grammar says ... *)
  Definition settled e s (r : comp (res (slice T) (gtree T) gerr)) : Prop :=
    r = OutOfFuel \/ exists o, has_outcome s r o /\ peg rules e (sl_data s) o.

  Lemma back s s' : later_slice s s' -> slice_rewind false s' s = Ret s.
  Proof. apply slice_rewind_later. Qed.

  Lemma loop_settled (p : dparser (slice T) (gtree T) gerr) a :
    (forall s, settled a s (parse p s)) ->
    forall k buf s, repeat_loop k p buf s = OutOfFuel \/
      (exists e ts s', repeat_loop k p buf s = Ret (Ok (buf ++ ts, e) s') /\ later_slice s s'
         /\ peg rules (GRep a) (sl_data s) (PSucc (TMany ts) (sl_data s'))) \/
      (exists s', repeat_loop k p buf s = Ret (Err EFatal s') /\ later_slice s s' /\ peg rules (GRep a) (sl_data s) PCut).
  Proof.
    intros P. induction k as [|k IH]; intros buf s; cbn; auto.
    destruct (P s) as [->|(o & H & G)]; cbn; auto. destruct o as [t rest| |].
    - destruct H as (s1 & -> & L & <-). cbn. destruct (IH (buf ++ [t]) s1) as [E|[(e & ts & s' & E & L' & Q)|(s' & E & L' & Q)]].
      + auto.
      + right. left. exists e, (t :: ts), s'. rewrite E, <- app_assoc. split; [reflexivity|].
        split; [eapply later_slice_trans; eauto|]. econstructor; eauto.
      + right. right. exists s'. split; [auto|]. split; [eapply later_slice_trans; eauto|]. eapply pg_rep_cut2; eauto.
    - destruct H as (s1 & -> & L). cbn. rewrite (back _ _ L). cbn. right. left.
      exists EMiss, [], s. rewrite app_nil_r. split; [reflexivity|]. split; [apply later_slice_refl|]. now constructor.
    - destruct H as (s1 & -> & L). cbn. right. right. exists s1. split; [reflexivity|]. split; [auto|]. now apply pg_rep_cut.
  Qed.

  Lemma sound fuel : forall e s, settled e s (run fuel e s).
  Proof.
    induction fuel as [fuel IHf] using lt_wf_ind.
    induction e as [|x|p|a IHa b IHb|a IHa b IHb|a IHa|a IHa|a IHa|i]; intros s.
    - right. rewrite run_any. destruct s as [al off [|x d]]; cbn.
      + exists PFail. split; [|constructor]. eexists. split; [reflexivity|]. apply later_slice_refl.
      + exists (PSucc (TItem x) d). split; [|constructor]. eexists. split; [reflexivity|]. split; [|reflexivity].
        apply (later_drop al off [x] d).
    - right. rewrite run_the. destruct s as [al off [|y d]].
      + exists PFail. split; [|constructor; discriminate]. eexists. split; [reflexivity|]. apply later_slice_refl.
      + rewrite the_slice. destruct (eqb y x) eqn:E; cbn.
        * apply eqb_ok in E. subst y. exists (PSucc TUnit d). split; [|constructor].
          eexists. split; [reflexivity|]. split; [|reflexivity]. apply (later_drop al off [x] d).
        * exists PFail. split; [eexists; split; [reflexivity|apply later_slice_refl]|].
          constructor. intros l' F. injection F as -> ->. rewrite (proj2 (eqb_ok x x) eq_refl) in E. discriminate.
    - right. rewrite run_atom. destruct s as [al off d]. destruct (atom_slice p al off d) as (A1 & A2).
      destruct (list_eqb eqb (firstn (length p) d) p) eqn:E.
      + apply list_eqb_ok in E.
        assert (Q : d = p ++ skipn (length p) d)
          by (transitivity (firstn (length p) d ++ skipn (length p) d); [symmetry; apply firstn_skipn|now rewrite E]).
        rewrite (A1 _ Q). cbn. exists (PSucc TUnit (skipn (length p) d)). split.
        * eexists. split; [reflexivity|]. split; [|reflexivity]. rewrite Q at 1. apply later_drop.
        * rewrite Q at 1. constructor.
      + assert (N : forall r, d <> p ++ r).
        { intros r ->. rewrite firstn_app, Nat.sub_diag, firstn_all in E. cbn in E. rewrite app_nil_r in E.
          rewrite (proj2 (list_eqb_ok p p) eq_refl) in E. discriminate. }
        rewrite (A2 N). cbn. exists PFail. split; [eexists; split; [reflexivity|apply later_slice_refl]|]. now constructor.
    - rewrite run_join. destruct (IHa s) as [->|(o & H & G)]; [now left|].
      destruct o as [t rest| |].
      + destruct H as (s1 & -> & L & <-). cbn. destruct (IHb s1) as [->|(o2 & H2 & G2)]; [now left|]. right.
        destruct o2 as [t2 rest2| |].
        * destruct H2 as (s2 & -> & L2 & <-). cbn. exists (PSucc (TPair t t2) (sl_data s2)).
          split; [|econstructor; eauto]. eexists. split; [reflexivity|]. split; [eapply later_slice_trans; eauto|auto].
        * destruct H2 as (s2 & -> & L2). cbn. exists PFail. split; [|eapply pg_join_fail2; eauto].
          eexists. split; [reflexivity|]. eapply later_slice_trans; eauto.
        * destruct H2 as (s2 & -> & L2). cbn. exists PCut. split; [|eapply pg_join_cut2; eauto].
          eexists. split; [reflexivity|]. eapply later_slice_trans; eauto.
      + destruct H as (s1 & -> & L). right. exists PFail. split; [exists s1; auto|]. now constructor.
      + destruct H as (s1 & -> & L). right. exists PCut. split; [exists s1; auto|]. now apply pg_join_cut1.
    - rewrite run_or. destruct (IHa s) as [->|(o & H & G)]; [now left|].
      destruct o as [t rest| |].
      + destruct H as (s1 & -> & L & <-). right. exists (PSucc (TFirst t) (sl_data s1)). split; [exists s1; auto|]. now constructor.
      + destruct H as (s1 & -> & L). cbn. rewrite (back _ _ L). cbn.
        destruct (IHb s) as [->|(o2 & H2 & G2)]; [now left|]. right. destruct o2 as [t2 rest2| |].
        * destruct H2 as (s2 & -> & L2 & <-). exists (PSucc (TLast t2) (sl_data s2)). split; [exists s2; auto|]. now apply pg_or_last.
        * destruct H2 as (s2 & -> & L2). exists PFail. split; [exists s2; auto|]. now apply pg_or_fail.
        * destruct H2 as (s2 & -> & L2). exists PCut. split; [exists s2; auto|]. now apply pg_or_cut2.
      + destruct H as (s1 & -> & L). right. exists PCut. split; [exists s1; auto|]. now apply pg_or_cut.
    - rewrite run_opt. destruct (IHa s) as [->|(o & H & G)]; [now left|]. right.
      destruct o as [t rest| |].
      + destruct H as (s1 & -> & L & <-). exists (PSucc (TSome t) (sl_data s1)). split; [exists s1; auto|]. now constructor.
      + destruct H as (s1 & -> & L). cbn. rewrite (back _ _ L). cbn. exists (PSucc TNone (sl_data s)).
        split; [|now apply pg_opt_none]. exists s. split; [reflexivity|]. split; [apply later_slice_refl|auto].
      + destruct H as (s1 & -> & L). exists PCut. split; [exists s1; auto|]. now apply pg_opt_cut.
    - rewrite run_rep. destruct (loop_settled _ _ IHa fuel [] s) as [->|[(e & ts & s' & -> & L & G)|(s' & -> & L & G)]].
      + now left.
      + right. cbn. exists (PSucc (TMany ts) (sl_data s')). split; [exists s'; auto|auto].
      + right. cbn. exists PCut. split; [exists s'; auto|auto].
    - rewrite run_cut. destruct (IHa s) as [->|(o & H & G)]; [now left|]. right.
      destruct o as [t rest| |].
      + destruct H as (s1 & -> & L & <-). exists (PSucc t (sl_data s1)). split; [exists s1; auto|]. now constructor.
      + destruct H as (s1 & -> & L). exists PCut. split; [exists s1; auto|]. now apply pg_cut_fail.
      + destruct H as (s1 & -> & L). exists PCut. split; [exists s1; auto|]. now apply pg_cut_cut.
    - rewrite run_ref. destruct fuel as [|fuel]; [now left|].
      destruct (IHf fuel (Nat.lt_succ_diag_r _) (rules i) s) as [->|(o & H & G)]; [now left|].
      right. exists o. split; [auto|]. now constructor.
  Qed.

  (** ** ... and all of it *)
  Definition loop_outcome s (buf : list (gtree T)) (r : comp (res (slice T) (list (gtree T) * gerr) gerr)) (o : poutcome T) : Prop :=
    match o with
    | PSucc (TMany ts) rest => exists e s', r = Ret (Ok (buf ++ ts, e) s') /\ later_slice s s' /\ sl_data s' = rest
    | PCut => exists s', r = Ret (Err EFatal s') /\ later_slice s s'
    | _ => False
    end.

  Definition full e l (o : poutcome T) : Prop :=
    exists n, forall fuel, n <= fuel -> forall s, sl_data s = l ->
      has_outcome s (run fuel e s) o /\
      match e with
      | GRep a => forall k buf, n <= k -> loop_outcome s buf (repeat_loop k (parser_of eqb rules fuel a) buf s) o
      | _ => True
      end.

  Lemma rep_full a l o :
    (exists n, forall fuel, n <= fuel -> forall s, sl_data s = l -> forall k buf, n <= k ->
       loop_outcome s buf (repeat_loop k (parser_of eqb rules fuel a) buf s) o) -> full (GRep a) l o.
  Proof.
    intros (n & H). exists n. intros fuel F s D. split; [|intros k buf K; apply H; auto].
    rewrite run_rep. specialize (H fuel F s D fuel [] F). destruct o as [[] rest| |]; try contradiction.
    - destruct H as (e & s' & -> & L & R). exists s'. auto.
    - destruct H as (s' & -> & L). exists s'. auto.
  Qed.

  Lemma full_loop a l o : full (GRep a) l o -> exists n, forall fuel, n <= fuel -> forall s, sl_data s = l ->
    forall k buf, n <= k -> loop_outcome s buf (repeat_loop k (parser_of eqb rules fuel a) buf s) o.
  Proof. intros (n & H). exists n. intros fuel F s D. apply (H fuel F s D). Qed.

  Lemma simple_full e l o : (forall a, e <> GRep a) ->
    (exists n, forall fuel, n <= fuel -> forall s, sl_data s = l -> has_outcome s (run fuel e s) o) -> full e l o.
  Proof.
    intros N (n & H). exists n. intros fuel F s D. split; [auto|]. destruct e; auto. now destruct (N e).
  Qed.

  Lemma peg_det e l o : peg rules e l o -> forall o', peg rules e l o' -> o = o'.
  Proof.
    induction 1; intros o' P; inversion P; subst; auto;
      try (match goal with H : forall l', _ <> _ |- _ => now destruct (H _ eq_refl) end);
      try (match goal with H : _ ++ _ = _ ++ _ |- _ => now apply app_inv_head in H; subst end);
      repeat (match goal with
              | IH : forall o', peg rules ?e ?l o' -> _ = o', H : peg rules ?e ?l _ |- _ =>
                  let Q := fresh in pose proof (IH _ H) as Q; clear IH; first [discriminate Q|injection Q as; subst|idtac]
              end); try congruence; auto.
  Qed.

  Lemma complete e l o : peg rules e l o -> full e l o.
  Proof.
    (* a settled run that is not out of fuel has the outcome, by determinism *)
    assert (ENOUGH : forall e l o, peg rules e l o -> (forall a, e <> GRep a) ->
      (exists n, forall fuel, n <= fuel -> forall s, sl_data s = l -> run fuel e s <> OutOfFuel) -> full e l o).
    { intros e0 l0 o0 P N (n & H). apply simple_full; auto. exists n. intros fuel F s D.
      destruct (sound fuel e0 s) as [E|(o' & A & B)]; [now destruct (H fuel F s D)|].
      rewrite D in B. now rewrite (peg_det _ _ _ P _ B). }
    intros P. induction P.
    - apply ENOUGH; [constructor|discriminate|]. exists 0. intros fuel _ s D. rewrite run_any. destruct s as [al off d]; cbn in *; subst; discriminate.
    - apply ENOUGH; [constructor|discriminate|]. exists 0. intros fuel _ s D. rewrite run_any. destruct s as [al off d]; cbn in *; subst; discriminate.
    - apply ENOUGH; [constructor|discriminate|]. exists 0. intros fuel _ s D. rewrite run_the. destruct s as [al off d]; cbn in D; subst.
      rewrite the_slice. destruct (eqb x x); discriminate.
    - apply ENOUGH; [now constructor|discriminate|]. exists 0. intros fuel _ s D. rewrite run_the. destruct s as [al off [|y d]]; cbn in D; subst; [discriminate|].
      rewrite the_slice. destruct (eqb y x); discriminate.
    - apply ENOUGH; [constructor|discriminate|]. exists 0. intros fuel _ s D. rewrite run_atom. destruct s as [al off d]; cbn in D; subst.
      rewrite (proj1 (atom_slice p al off _) l eq_refl). discriminate.
    - apply ENOUGH; [now constructor|discriminate|]. exists 0. intros fuel _ s D. rewrite run_atom. destruct s as [al off d]; cbn in D; subst.
      rewrite (proj2 (atom_slice p al off _) H). discriminate.
    - (* join *) destruct IHP1 as (n1 & H1), IHP2 as (n2 & H2).
      apply ENOUGH; [econstructor; eauto|discriminate|]. exists (n1 + n2). intros fuel F s D. rewrite run_join.
      destruct (H1 fuel ltac:(lia) s D) as ((s1 & -> & L & D1) & _). cbn.
      destruct (H2 fuel ltac:(lia) s1 D1) as ((s2 & -> & _) & _). discriminate.
    - destruct IHP as (n1 & H1). apply ENOUGH; [now constructor|discriminate|]. exists n1. intros fuel F s D. rewrite run_join.
      destruct (H1 fuel F s D) as ((s1 & -> & _) & _). discriminate.
    - destruct IHP as (n1 & H1). apply ENOUGH; [now apply pg_join_cut1|discriminate|]. exists n1. intros fuel F s D. rewrite run_join.
      destruct (H1 fuel F s D) as ((s1 & -> & _) & _). discriminate.
    - destruct IHP1 as (n1 & H1), IHP2 as (n2 & H2).
      apply ENOUGH; [eapply pg_join_fail2; eauto|discriminate|]. exists (n1 + n2). intros fuel F s D. rewrite run_join.
      destruct (H1 fuel ltac:(lia) s D) as ((s1 & -> & L & D1) & _). cbn.
      destruct (H2 fuel ltac:(lia) s1 D1) as ((s2 & -> & _) & _). discriminate.
    - destruct IHP1 as (n1 & H1), IHP2 as (n2 & H2).
      apply ENOUGH; [eapply pg_join_cut2; eauto|discriminate|]. exists (n1 + n2). intros fuel F s D. rewrite run_join.
      destruct (H1 fuel ltac:(lia) s D) as ((s1 & -> & L & D1) & _). cbn.
      destruct (H2 fuel ltac:(lia) s1 D1) as ((s2 & -> & _) & _). discriminate.
    - (* or *) destruct IHP as (n1 & H1). apply ENOUGH; [now constructor|discriminate|]. exists n1. intros fuel F s D. rewrite run_or.
      destruct (H1 fuel F s D) as ((s1 & -> & _) & _). discriminate.
    - destruct IHP as (n1 & H1). apply ENOUGH; [now apply pg_or_cut|discriminate|]. exists n1. intros fuel F s D. rewrite run_or.
      destruct (H1 fuel F s D) as ((s1 & -> & _) & _). discriminate.
    - destruct IHP1 as (n1 & H1), IHP2 as (n2 & H2). apply ENOUGH; [now apply pg_or_last|discriminate|].
      exists (n1 + n2). intros fuel F s D. rewrite run_or.
      destruct (H1 fuel ltac:(lia) s D) as ((s1 & -> & L) & _). cbn. rewrite (back _ _ L). cbn.
      destruct (H2 fuel ltac:(lia) s D) as ((s2 & -> & _) & _). discriminate.
    - destruct IHP1 as (n1 & H1), IHP2 as (n2 & H2). apply ENOUGH; [now apply pg_or_fail|discriminate|].
      exists (n1 + n2). intros fuel F s D. rewrite run_or.
      destruct (H1 fuel ltac:(lia) s D) as ((s1 & -> & L) & _). cbn. rewrite (back _ _ L). cbn.
      destruct (H2 fuel ltac:(lia) s D) as ((s2 & -> & _) & _). discriminate.
    - destruct IHP1 as (n1 & H1), IHP2 as (n2 & H2). apply ENOUGH; [now apply pg_or_cut2|discriminate|].
      exists (n1 + n2). intros fuel F s D. rewrite run_or.
      destruct (H1 fuel ltac:(lia) s D) as ((s1 & -> & L) & _). cbn. rewrite (back _ _ L). cbn.
      destruct (H2 fuel ltac:(lia) s D) as ((s2 & -> & _) & _). discriminate.
    - (* optional *) destruct IHP as (n1 & H1). apply ENOUGH; [now constructor|discriminate|]. exists n1. intros fuel F s D. rewrite run_opt.
      destruct (H1 fuel F s D) as ((s1 & -> & _) & _). discriminate.
    - destruct IHP as (n1 & H1). apply ENOUGH; [now apply pg_opt_none|discriminate|]. exists n1. intros fuel F s D. rewrite run_opt.
      destruct (H1 fuel F s D) as ((s1 & -> & L) & _). cbn. rewrite (back _ _ L). discriminate.
    - destruct IHP as (n1 & H1). apply ENOUGH; [now apply pg_opt_cut|discriminate|]. exists n1. intros fuel F s D. rewrite run_opt.
      destruct (H1 fuel F s D) as ((s1 & -> & _) & _). discriminate.
    - (* repeat *) destruct IHP as (n1 & H1). apply rep_full. exists (Datatypes.S n1). intros fuel F s D [|k] buf K; [lia|].
      destruct (H1 fuel ltac:(lia) s D) as ((s1 & E & L) & _). cbn [repeat_loop]. rewrite E. cbn. rewrite (back _ _ L). cbn.
      exists EMiss, s. rewrite app_nil_r. split; [reflexivity|]. split; [apply later_slice_refl|auto].
    - destruct IHP1 as (n1 & H1). destruct (full_loop _ _ _ IHP2) as (n2 & H2). apply rep_full.
      exists (Datatypes.S (n1 + n2)). intros fuel F s D [|k] buf K; [lia|].
      destruct (H1 fuel ltac:(lia) s D) as ((s1 & E & L & D1) & _). cbn [repeat_loop]. rewrite E. cbn.
      destruct (H2 fuel ltac:(lia) s1 D1 k (buf ++ [t]) ltac:(lia)) as (e & s2 & E2 & L2 & D2). rewrite E2.
      exists e, s2. rewrite <- app_assoc. split; [reflexivity|]. split; [eapply later_slice_trans; eauto|auto].
    - destruct IHP as (n1 & H1). apply rep_full. exists (Datatypes.S n1). intros fuel F s D [|k] buf K; [lia|].
      destruct (H1 fuel ltac:(lia) s D) as ((s1 & E & L) & _). cbn [repeat_loop]. rewrite E. cbn. exists s1. auto.
    - destruct IHP1 as (n1 & H1). destruct (full_loop _ _ _ IHP2) as (n2 & H2). apply rep_full.
      exists (Datatypes.S (n1 + n2)). intros fuel F s D [|k] buf K; [lia|].
      destruct (H1 fuel ltac:(lia) s D) as ((s1 & E & L & D1) & _). cbn [repeat_loop]. rewrite E. cbn.
      destruct (H2 fuel ltac:(lia) s1 D1 k (buf ++ [t]) ltac:(lia)) as (s2 & E2 & L2). rewrite E2.
      exists s2. split; [reflexivity|]. eapply later_slice_trans; eauto.
    - (* cut *) destruct IHP as (n1 & H1). apply ENOUGH; [now constructor|discriminate|]. exists n1. intros fuel F s D. rewrite run_cut.
      destruct (H1 fuel F s D) as ((s1 & -> & _) & _). discriminate.
    - destruct IHP as (n1 & H1). apply ENOUGH; [now apply pg_cut_fail|discriminate|]. exists n1. intros fuel F s D. rewrite run_cut.
      destruct (H1 fuel F s D) as ((s1 & -> & _) & _). discriminate.
    - destruct IHP as (n1 & H1). apply ENOUGH; [now apply pg_cut_cut|discriminate|]. exists n1. intros fuel F s D. rewrite run_cut.
      destruct (H1 fuel F s D) as ((s1 & -> & _) & _). discriminate.
    - (* rule *) destruct IHP as (n1 & H1). apply ENOUGH; [now constructor|discriminate|].
      exists (Datatypes.S n1). intros [|fuel] F s D; [lia|]. rewrite run_ref.
      destruct (H1 fuel ltac:(lia) s D) as (A & _). destruct o; destruct A as (s1 & -> & _); discriminate.
  Qed.

  Lemma once fuel : forall e s, parse_once (parser_of eqb rules fuel e) s = run fuel e s.
  Proof.
    destruct fuel as [|fuel].
    all: induction e as [|x|p|a IHa b IHb|a IHa b IHb|a IHa|a IHa|a IHa|i]; intros s; try reflexivity.
    all: cbn in *; unfold map_err_parse_once, map_err_parse; cbn; unfold map_parse_once, map_parse; cbn;
      unfold join_parse_once, join_parse, or_parse_once, or_parse, optional_parse_once, optional_parse; rewrite ?IHa; try reflexivity.
    all: match goal with |- bind (bind (bind ?x _) _) _ = _ => destruct x as [[? ?|[] ?]| | |]; cbn; try reflexivity end.
    all: try (now rewrite IHb).
    all: match goal with |- context [slice_rewind ?a ?b ?c] => destruct (slice_rewind a b c); cbn; try reflexivity end; now rewrite IHb.
  Qed.
End Peg.
