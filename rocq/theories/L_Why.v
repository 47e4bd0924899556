(** * L_Why: the combinators keep the reasons. *)
From Verif Require Export S_Why L_Peg.

Local Arguments slice_rewind : simpl never.
#[local] Hint Constructors tells : core.

Section Why.
  Context {T : Type} (eqb : T -> T -> bool) (rules : nat -> gexp T).
  Hypothesis eqb_ok : decides_eq eqb.

  Notation run fuel e := (parse (telling eqb rules fuel e)).
  Implicit Types (s : slice T) (f g : why T).

  (** The names given to the errors classify as the errors do. *)
  Lemma renamed :
    (forall q (m : Miss unit), grave (T := T) (of_miss q m) = should_terminate m) /\
    (forall e : Either (why T) (why T), grave (of_join e) = should_terminate e) /\
    (forall e : EitherBoth (why T) (why T), grave (of_or e) = should_terminate e) /\
    (forall e : Fatal (why T), grave (of_fatal e) = should_terminate e).
  Proof. repeat split; intros []; reflexivity. Qed.

  (** ** One level of the parser *)
  Lemma tell_any fuel s : run fuel GAny s =
    r <- parse any_item s ;; match r with Ok x s' => Ret (Ok (WItem x) s') | Err _ s' => Ret (Err (WLeaf QAny) s') end.
  Proof.
    transitivity (parse (MapErr (Map any_item (WItem (T := T))) (of_miss (T := T) QAny)) s); [destruct fuel; reflexivity|].
    rewrite map_both. now destruct (parse any_item s) as [[|[]]| | |].
  Qed.
  Lemma tell_the fuel x s : run fuel (GThe x) s =
    r <- parse (the_item eqb x) s ;; match r with Ok _ s' => Ret (Ok WUnit s') | Err _ s' => Ret (Err (WLeaf (QThe x)) s') end.
  Proof.
    transitivity (parse (MapErr (Map (the_item eqb x) (fun _ => WUnit : wtree T)) (of_miss (T := T) (QThe x))) s); [destruct fuel; reflexivity|].
    rewrite map_both. now destruct (parse (the_item eqb x) s) as [[|[]]| | |].
  Qed.
  Lemma tell_atom fuel p s : let SG := list_segment eqb in run fuel (GAtom p) s =
    r <- parse (atom p) s ;; match r with Ok _ s' => Ret (Ok WUnit s') | Err _ s' => Ret (Err (WLeaf (QAtom p)) s') end.
  Proof.
    intros SG.
    transitivity (parse (MapErr (Map (atom p) (fun _ => WUnit : wtree T)) (of_miss (T := T) (QAtom p))) s); [destruct fuel; reflexivity|].
    rewrite map_both. now destruct (parse (atom p) s) as [[|[]]| | |].
  Qed.
  Lemma tell_join fuel a b s : run fuel (GJoin a b) s =
    ra <- run fuel a s ;;
    match ra with
    | Ok x m => rb <- run fuel b m ;;
        match rb with Ok y r => Ret (Ok (WPair x y) r) | Err f r => Ret (Err (WSecond f) r) end
    | Err f r => Ret (Err (WFirst f) r)
    end.
  Proof.
    transitivity (parse (MapErr (Map (Join (telling eqb rules fuel a) (telling eqb rules fuel b)) (fun '(x, y) => WPair x y)) of_join) s);
      [destruct fuel; reflexivity|].
    rewrite map_both. cbn [parse Join]. unfold join_parse.
    destruct (run fuel a s) as [[x m|f m]| | |]; cbn [bind fail]; try reflexivity.
    destruct (run fuel b m) as [[? ?|? ?]| | |]; reflexivity.
  Qed.
  Lemma tell_or fuel a b s : run fuel (GOr a b) s =
    ra <- run fuel a s ;;
    match ra with
    | Ok x r => Ret (Ok (WTook x) r)
    | Err f r =>
        if grave f then Ret (Err (WOnlyFirst f) r) else
        s' <- slice_rewind false r s ;; rb <- run fuel b s' ;;
        match rb with
        | Ok y r => Ret (Ok (WInstead y) r)
        | Err g r => if grave g then Ret (Err (WOnlySecond g) r) else Ret (Err (WBoth f g) r)
        end
    end.
  Proof.
    transitivity (parse (MapErr (Map (Or (telling eqb rules fuel a) (telling eqb rules fuel b))
      (fun e => match e with First x => WTook x | Last x => WInstead x end)) of_or) s); [destruct fuel; reflexivity|].
    rewrite map_both. cbn [parse Or]. unfold or_parse.
    destruct (run fuel a s) as [[x m|f m]| | |]; cbn [bind fail done]; try reflexivity.
    unfold should_terminate, pe_why. destruct (grave f); cbn [negb]; [reflexivity|].
    cbn [rewind anchor slice_rewind_sequence].
    destruct (slice_rewind false m s) as [s'| | |]; cbn [bind]; try reflexivity.
    destruct (run fuel b s') as [[? ?|g ?]| | |]; try reflexivity. cbn [bind]. now destruct (grave g).
  Qed.
  Lemma tell_opt fuel a s : run fuel (GOpt a) s =
    ra <- run fuel a s ;;
    match ra with
    | Ok x r => Ret (Ok (WSome x) r)
    | Err f r => if grave f then Ret (Err f r) else s' <- slice_rewind false r s ;; Ret (Ok (WNone f) s')
    end.
  Proof.
    transitivity (parse (Map (Optional (telling eqb rules fuel a)) (fun r => match r with ROk x => WSome x | RErr f => (WNone f : wtree T) end)) s);
      [destruct fuel; reflexivity|].
    cbn [parse Map]. unfold map_parse. cbn [parse Optional]. unfold optional_parse.
    destruct (run fuel a s) as [[x m|f m]| | |]; cbn [bind fail done]; try reflexivity.
    unfold should_terminate, pe_why. destruct (grave f); cbn [negb]; [reflexivity|].
    cbn [rewind anchor slice_rewind_sequence].
    destruct (slice_rewind false m s) as [s'| | |]; reflexivity.
  Qed.
  Lemma tell_rep fuel a s : run fuel (GRep a) s =
    r <- repeat_loop fuel (telling eqb rules fuel a) [] s ;;
    match r with Ok (l, f) r => Ret (Ok (WMany l f) r) | Err f r => Ret (Err f r) end.
  Proof.
    transitivity (parse (Map (Repeat fuel (telling eqb rules fuel a)) (fun '(l, f) => WMany l f)) s);
      [destruct fuel; reflexivity|].
    cbn [parse Map]. unfold map_parse. cbn [parse Repeat]. unfold repeat_parse.
    destruct (repeat_loop fuel (telling eqb rules fuel a) [] s) as [[[] ?|? ?]| | |]; reflexivity.
  Qed.
  Lemma tell_cut fuel a s : run fuel (GCut a) s =
    r <- run fuel a s ;; match r with Ok x r => Ret (Ok x r) | Err f r => Ret (Err (WCut f) r) end.
  Proof.
    transitivity (parse (MapErr (MapErr (telling eqb rules fuel a) (MkFatal (E := why T))) of_fatal) s); [destruct fuel; reflexivity|].
    cbn [parse MapErr]. unfold map_err_parse. cbn [parse MapErr]. unfold map_err_parse.
    destruct (run fuel a s) as [[]| | |]; reflexivity.
  Qed.
  Lemma tell_ref fuel i s : run fuel (GRef i) s =
    match fuel with 0 => OutOfFuel | Datatypes.S fuel => run fuel (rules i) s end.
  Proof. destruct fuel; reflexivity. Qed.

  (** ** It is the parser of S_Peg with more to say *)
  Definition say (f : why T) : gerr := if grave f then EFatal else EMiss.
  Definition quieter (c : comp (res (slice T) (wtree T) (why T))) : comp (res (slice T) (gtree T) gerr) :=
    match c with
    | Ret (Ok t s) => Ret (Ok (bare t) s)
    | Ret (Err f s) => Ret (Err (say f) s)
    | Panic => Panic
    | UB => UB
    | OutOfFuel => OutOfFuel
    end.

  Lemma loop_quieter (p : dparser (slice T) (gtree T) gerr) (q : dparser (slice T) (wtree T) (why T)) :
    (forall s, parse p s = quieter (parse q s)) ->
    forall k buf s, repeat_loop k p (map bare buf) s =
      match repeat_loop k q buf s with
      | Ret (Ok (l, f) s) => Ret (Ok (map bare l, say f) s)
      | Ret (Err f s) => Ret (Err (say f) s)
      | Panic => Panic
      | UB => UB
      | OutOfFuel => OutOfFuel
      end.
  Proof.
    intros H. induction k as [|k IH]; intros buf s; cbn [repeat_loop]; auto.
    rewrite H. destruct (parse q s) as [[t m|f m]| | |]; cbn [bind quieter]; auto.
    - rewrite <- IH. now rewrite map_app.
    - unfold should_terminate, pe_why, pe_gerr, say. destruct (grave f) eqn:G; cbn; [now rewrite G|].
      destruct (slice_rewind false m s); cbn; auto. now rewrite G.
  Qed.

  Lemma quieter_run fuel : forall e s, parse (parser_of eqb rules fuel e) s = quieter (run fuel e s).
  Proof.
    induction fuel as [fuel IHf] using lt_wf_ind.
    induction e as [|x|p|a IHa b IHb|a IHa b IHb|a IHa|a IHa|a IHa|i]; intros s.
    - rewrite run_any, tell_any. now destruct (parse any_item s) as [[]| | |].
    - rewrite run_the, tell_the. now destruct (parse (the_item eqb x) s) as [[]| | |].
    - rewrite run_atom, tell_atom. now destruct (parse _ s) as [[]| | |].
    - rewrite run_join, tell_join, IHa. destruct (run fuel a s) as [[t m|f m]| | |]; cbn; auto.
      rewrite IHb. now destruct (run fuel b m) as [[]| | |].
    - rewrite run_or, tell_or, IHa. destruct (run fuel a s) as [[t m|f m]| | |]; cbn; auto.
      unfold say. destruct (grave f) eqn:G; cbn; [unfold say; cbn; now rewrite G|]. destruct (slice_rewind false m s); cbn; auto.
      rewrite IHb. destruct (run fuel b _) as [[|g ?]| | |]; cbn; auto.
      unfold say. destruct (grave g) eqn:G'; cbn; unfold say; cbn; now rewrite ?G, ?G'.
    - rewrite run_opt, tell_opt, IHa. destruct (run fuel a s) as [[t m|f m]| | |]; cbn; auto.
      unfold say. destruct (grave f) eqn:G; cbn; [unfold say; now rewrite G|]. now destruct (slice_rewind false m s).
    - rewrite run_rep, tell_rep. rewrite (loop_quieter _ _ IHa fuel [] s : repeat_loop _ _ [] s = _).
      now destruct (repeat_loop _ (telling eqb rules fuel a) _ _) as [[[]|]| | |].
    - rewrite run_cut, tell_cut, IHa. now destruct (run fuel a s) as [[]| | |].
    - rewrite run_ref, tell_ref. destruct fuel as [|fuel]; [reflexivity|]. apply IHf. lia.
  Qed.

  (** ** It says what S_Why says *)
  Definition told e s (r : comp (res (slice T) (wtree T) (why T))) : Prop :=
    r = OutOfFuel \/ exists o, answers s r o /\ tells rules e (sl_data s) o.

  Lemma loop_told (p : dparser (slice T) (wtree T) (why T)) a :
    (forall s, told a s (parse p s)) ->
    forall k buf s, repeat_loop k p buf s = OutOfFuel \/
      (exists f ts s', repeat_loop k p buf s = Ret (Ok (buf ++ ts, f) s') /\ later_slice s s'
         /\ tells rules (GRep a) (sl_data s) (WSucc (WMany ts f) (sl_data s'))) \/
      (exists f s', repeat_loop k p buf s = Ret (Err f s') /\ later_slice s s'
         /\ tells rules (GRep a) (sl_data s) (WFail f (sl_data s'))).
  Proof.
    intros P. induction k as [|k IH]; intros buf s; cbn [repeat_loop]; auto.
    destruct (P s) as [->|([t rest|f rest] & (s1 & -> & L & <-) & G)]; cbn [bind]; auto.
    - destruct (IH (buf ++ [t]) s1) as [E|[(f & ts & s' & E & L' & Q)|(f & s' & E & L' & Q)]].
      + auto.
      + right. left. exists f, (t :: ts), s'. rewrite E, <- app_assoc. split; [reflexivity|].
        split; [eapply later_slice_trans; eauto|]. eauto.
      + right. right. exists f, s'. split; [auto|]. split; [eapply later_slice_trans; eauto|]. eauto.
    - unfold should_terminate, pe_why. destruct (grave f) eqn:F; cbn.
      + right. right. exists f, s1. eauto.
      + rewrite (back _ _ L). cbn. right. left. exists f, [], s. rewrite app_nil_r. split; [reflexivity|].
        split; [apply later_slice_refl|]. eauto.
  Qed.

  Lemma tells_run fuel : forall e s, told e s (run fuel e s).
  Proof.
    assert (HERE : forall e s t, tells rules e (sl_data s) (WFail t (sl_data s)) -> told e s (Ret (Err t s))).
    { intros e s t H. right. exists (WFail t (sl_data s)). split; [|auto]. exists s. auto using later_slice_refl. }
    assert (GOOD : forall e s t s', later_slice s s' -> tells rules e (sl_data s) (WSucc t (sl_data s')) -> told e s (Ret (Ok t s'))).
    { intros e s t s' L H. right. exists (WSucc t (sl_data s')). split; [|auto]. exists s'. auto. }
    assert (BAD : forall e s f s', later_slice s s' -> tells rules e (sl_data s) (WFail f (sl_data s')) -> told e s (Ret (Err f s'))).
    { intros e s f s' L H. right. exists (WFail f (sl_data s')). split; [|auto]. exists s'. auto. }
    induction fuel as [fuel IHf] using lt_wf_ind.
    induction e as [|x|p|a IHa b IHb|a IHa b IHb|a IHa|a IHa|a IHa|i]; intros s.
    - rewrite tell_any. destruct s as [al off [|x d]]; cbn.
      + apply HERE. constructor. reflexivity.
      + apply GOOD; [apply (later_drop al off [x] d)|constructor].
    - rewrite tell_the. destruct s as [al off [|y d]].
      + apply HERE. constructor. discriminate.
      + rewrite the_slice. destruct (eqb y x) eqn:E; cbn.
        * apply eqb_ok in E. subst y. apply GOOD; [apply (later_drop al off [x] d)|constructor].
        * apply HERE. constructor. intros l' F. injection F as -> ->. rewrite (proj2 (eqb_ok x x) eq_refl) in E. discriminate.
    - rewrite tell_atom. destruct s as [al off d]. destruct (atom_slice eqb eqb_ok p al off d) as (A1 & A2).
      destruct (list_eqb eqb (firstn (length p) d) p) eqn:E.
      + apply (list_eqb_ok eqb eqb_ok) in E.
        assert (Q : d = p ++ skipn (length p) d)
          by (transitivity (firstn (length p) d ++ skipn (length p) d); [symmetry; apply firstn_skipn|now rewrite E]).
        rewrite (A1 _ Q). cbn. apply GOOD; [rewrite Q at 1; apply later_drop|]. cbn. rewrite Q at 1. constructor.
      + assert (N : forall r, d <> p ++ r).
        { intros r ->. rewrite firstn_app, Nat.sub_diag, firstn_all in E. cbn in E. rewrite app_nil_r in E.
          rewrite (proj2 (list_eqb_ok eqb eqb_ok p p) eq_refl) in E. discriminate. }
        rewrite (A2 N). cbn. apply HERE. now constructor.
    - rewrite tell_join. destruct (IHa s) as [->|([t rest|f rest] & (s1 & -> & L & <-) & G)]; [now left| |]; cbn [bind].
      + destruct (IHb s1) as [->|([t2 rest2|f rest2] & (s2 & -> & L2 & <-) & G2)]; [now left| |]; cbn [bind].
        * apply GOOD; [eapply later_slice_trans|]; eauto.
        * apply BAD; [eapply later_slice_trans|]; eauto.
      + apply BAD; eauto.
    - rewrite tell_or. destruct (IHa s) as [->|([t rest|f rest] & (s1 & -> & L & <-) & G)]; [now left| |]; cbn [bind].
      + apply GOOD; eauto.
      + destruct (grave f) eqn:F; [apply BAD; eauto|]. rewrite (back _ _ L). cbn [bind].
        destruct (IHb s) as [->|([t2 rest2|g rest2] & (s2 & -> & L2 & <-) & G2)]; [now left| |]; cbn [bind].
        * apply GOOD; eauto.
        * destruct (grave g) eqn:F2; apply BAD; eauto.
    - rewrite tell_opt. destruct (IHa s) as [->|([t rest|f rest] & (s1 & -> & L & <-) & G)]; [now left| |]; cbn [bind].
      + apply GOOD; eauto.
      + destruct (grave f) eqn:F; [apply BAD; eauto|]. rewrite (back _ _ L). cbn [bind]. apply GOOD; eauto using later_slice_refl.
    - rewrite tell_rep. destruct (loop_told _ _ IHa fuel [] s) as [->|[(f & ts & s' & -> & L & G)|(f & s' & -> & L & G)]]; cbn [bind].
      + now left.
      + apply GOOD; eauto.
      + apply BAD; eauto.
    - rewrite tell_cut. destruct (IHa s) as [->|([t rest|f rest] & (s1 & -> & L & <-) & G)]; [now left| |]; cbn [bind].
      + apply GOOD; eauto.
      + apply BAD; eauto.
    - rewrite tell_ref. destruct fuel as [|fuel]; [now left|].
      destruct (IHf fuel (Nat.lt_succ_diag_r _) (rules i) s) as [->|(o & H & G)]; [now left|].
      right. exists o. auto.
  Qed.

  Lemma tells_det e l o : tells rules e l o -> forall o', tells rules e l o' -> o = o'.
  Proof.
    induction 1; intros o' P; inversion P; subst; auto;
      try (match goal with H : stuck _ _ |- _ => cbn in H; first [discriminate H|now destruct (H _ eq_refl)] end);
      try (match goal with H : _ ++ _ = _ ++ _ |- _ => now apply app_inv_head in H; subst end);
      repeat (match goal with
              | IH : forall o', tells rules ?e ?l o' -> _ = o', H : tells rules ?e ?l _ |- _ =>
                  let Q := fresh in pose proof (IH _ H) as Q; clear IH; first [discriminate Q|injection Q as; subst|idtac]
              end); try congruence; auto.
  Qed.

  (** ** Without the reasons it is the PEG *)
  Lemma rep_grave a l f r : tells rules (GRep a) l (WFail f r) -> grave f = true.
  Proof.
    intros H. remember (GRep a) as e eqn:E. remember (WFail f r) as o eqn:Q. revert a f r E Q.
    induction H; intros a0 f0 r0 E Q; try discriminate; injection Q as <- <-; auto. eapply IHtells2; eauto.
  Qed.

  Lemma tells_peg e l o : tells rules e l o -> peg rules e l (without_reasons o).
  Proof.
    induction 1; cbn in *.
    - constructor.
    - subst. constructor.
    - constructor.
    - now constructor.
    - constructor.
    - now constructor.
    - econstructor; eauto.
    - destruct (grave f); [now apply pg_join_cut1|now apply pg_join_fail1].
    - destruct (grave f); [eapply pg_join_cut2; eauto|eapply pg_join_fail2; eauto].
    - now constructor.
    - rewrite H0 in *. now apply pg_or_cut.
    - rewrite H0 in *. now apply pg_or_last.
    - rewrite H0, H2 in *. cbn. now apply pg_or_fail.
    - rewrite H0, H2 in *. now apply pg_or_cut2.
    - now constructor.
    - rewrite H0 in *. now apply pg_opt_none.
    - rewrite H0 in *. now apply pg_opt_cut.
    - rewrite H0 in *. now apply pg_rep_end.
    - eapply pg_rep_more; eauto.
    - rewrite H0 in *. now apply pg_rep_cut.
    - destruct (grave f) eqn:F; [eapply pg_rep_cut2; eauto|].
      now rewrite (rep_grave _ _ _ _ H0) in F.
    - now apply pg_cut_ok.
    - destruct (grave f); [now apply pg_cut_cut|now apply pg_cut_fail].
    - now constructor.
  Qed.

  Lemma peg_tells e l o : peg rules e l o -> exists o', without_reasons o' = o /\ tells rules e l o'.
  Proof.
    intros P. destruct (complete eqb rules eqb_ok e l o P) as (n & H).
    destruct (H n (le_n _) (Slice 0 0 l) eq_refl) as (A & _).
    destruct (tells_run n e (Slice 0 0 l)) as [E|(o' & _ & G)].
    - rewrite quieter_run, E in A. destruct o; destruct A as (? & A & _); discriminate.
    - exists o'. split; [|auto]. exact (peg_det rules e l _ (tells_peg _ _ _ G) _ P).
  Qed.

  (** ... and so the answer comes within the budget of the PEG's. *)
  Lemma tells_complete e l o : tells rules e l o ->
    exists n, forall fuel s, n <= fuel -> sl_data s = l -> answers s (run fuel e s) o.
  Proof.
    intros P. destruct (complete eqb rules eqb_ok e l _ (tells_peg _ _ _ P)) as (n & H). exists n. intros fuel s F D.
    destruct (H fuel F s D) as (A & _). destruct (tells_run fuel e s) as [E|(o' & A' & G)].
    - rewrite quieter_run, E in A. destruct (without_reasons o); destruct A as (? & A & _); discriminate.
    - rewrite D in G. now rewrite (tells_det _ _ _ P _ G).
  Qed.

  (** ** What the reasons mean *)
  Definition stands_at (l : list T) (q : probe T) : Prop := exists read ahead, l = read ++ ahead /\ stuck q ahead.

  Lemma tells_rest e l o : tells rules e l o ->
    exists read, l = read ++ match o with WSucc _ r | WFail _ r => r end.
  Proof.
    induction 1; try (now exists []); try (exists [x]; reflexivity); try (exists p; reflexivity);
      try (destruct IHtells as (d & ->); exists d; reflexivity); try (destruct IHtells1 as (d & ->); now exists []);
      try (destruct IHtells1 as (d1 & ->), IHtells2 as (d2 & ->); exists (d1 ++ d2); now rewrite app_assoc); auto.
  Qed.

  Lemma stands_later l1 l q : stands_at l q -> stands_at (l1 ++ l) q.
  Proof. intros (d & m & -> & H). exists (l1 ++ d), m. now rewrite app_assoc. Qed.

  Lemma tells_blames e l o : tells rules e l o ->
    match o with
    | WSucc t _ => forall f, In f (reasons t) -> grave f = false /\ blamed f <> [] /\ Forall (stands_at l) (blamed f)
    | WFail f r => Forall (stands_at l) (blamed f) /\ (exists qs q, blamed f = qs ++ [q] /\ stuck q r)
    end.
  Proof.
    assert (HERE : forall q l, stuck q l -> Forall (stands_at l) [q] /\ (exists qs q', [q] = qs ++ [q'] /\ stuck q' l)).
    { intros q l0 H. split; [constructor; auto; now exists [], l0|]. now exists [], q. }
    assert (LATER : forall l1 l f, Forall (stands_at l) (blamed f) -> Forall (stands_at (l1 ++ l)) (blamed f)).
    { intros l1 l0 f H. eapply Forall_impl; [|exact H]. intros q. apply stands_later. }
    assert (SOME : forall f r, (exists qs q, blamed f = qs ++ [q] /\ stuck q r) -> blamed f <> []).
    { intros f r (qs & q & -> & _) E. now destruct qs. }
    induction 1; cbn [reasons blamed] in *; try (now intros ? []); try (now apply HERE); auto.
    - (* join *) apply tells_rest in H. destruct H as (d & ->). intros f I. apply in_app_or in I as [I|I].
      + now apply IHtells1.
      + destruct (IHtells2 f I) as (A & B & C). auto.
    - apply tells_rest in H. destruct H as (d & ->). destruct IHtells2 as (A & B). auto.
    - (* both *) destruct IHtells1 as (A & B), IHtells2 as (C & (qs & q' & D & E)). split; [now apply Forall_app|].
      exists (blamed f ++ qs), q'. rewrite D. split; [now rewrite app_assoc|auto].
    - (* optional *) intros g [<-|[]]. destruct IHtells. eauto.
    - (* repeat *) intros g [<-|[]]. destruct IHtells. eauto.
    - apply tells_rest in H. destruct H as (d & ->). intros g I. cbn [flat_map] in I. rewrite <- app_assoc in I.
      apply in_app_or in I as [I|I]; [now apply IHtells1|]. destruct (IHtells2 g I) as (A & B & C). auto.
    - apply tells_rest in H. destruct H as (d & ->). destruct IHtells2 as (A & B). auto.
  Qed.

  Lemma tells_cut e l o : tells rules e l o ->
    match o with WSucc _ _ => True | WFail f _ => grave f = true <-> has_cut f end.
  Proof.
    induction 1; cbn in *; auto; try tauto; try (split; congruence); try (split; [discriminate|contradiction]).
    rewrite H0, H2 in *. cbn. tauto.
  Qed.
End Why.
