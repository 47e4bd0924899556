(** * L_Any: agreement goes through every combinator. *)
From Verif Require Export S_Any L_PegOn.

Section Agree.
  Context {S1 A1 S2 A2 : Type} {R1 : RewindSequence S1 A1} {R2 : RewindSequence S2 A2}.
  Context (pair : S1 -> S2 -> Prop) (step : S1 -> S2 -> S1 -> S2 -> Prop).
  Hypothesis CC : corresponds pair step.

  Notation agr := (agree step).
  (** Bodies that agree. *)
  Definition al {O E} (f1 : pfun S1 O E) (f2 : pfun S2 O E) : Prop :=
    forall s1 s2, pair s1 s2 -> agr s1 s2 (f1 s1) (f2 s2).

  Lemma agree_step {O E} s1 s2 q1 q2 (c1 : comp (res S1 O E)) c2 :
    step s1 s2 q1 q2 -> agr q1 q2 c1 c2 -> agr s1 s2 c1 c2.
  Proof.
    intros H. destruct c1 as [[]| | |], c2 as [[]| | |]; cbn; auto; intros (-> & K); split; eauto using (step_trans _ _ CC).
  Qed.
  Lemma agree_bind {O E O' E'} s1 s2 (c1 : comp (res S1 O E)) c2
      (k1 : res S1 O E -> comp (res S1 O' E')) (k2 : res S2 O E -> comp (res S2 O' E')) :
    agr s1 s2 c1 c2 ->
    (forall x r1 r2, step s1 s2 r1 r2 -> pair r1 r2 \/ ~ pair s1 s2 -> agr s1 s2 (k1 (Ok x r1)) (k2 (Ok x r2))) ->
    (forall e r1 r2, step s1 s2 r1 r2 -> agr s1 s2 (k1 (Err e r1)) (k2 (Err e r2))) ->
    pair s1 s2 -> agr s1 s2 (bind c1 k1) (bind c2 k2).
  Proof.
    intros H HO HE V. destruct c1 as [[x r1|e r1]| | |], c2 as [[y r2|f r2]| | |]; cbn in H |- *; try contradiction; auto;
      destruct H as (-> & H); auto. apply HO; auto. left. eapply (step_pair _ _ CC); eauto.
  Qed.

  Ltac step_both := intros; cbn; auto.
  Ltac back := erewrite (back1 _ _ CC), (back2 _ _ CC) by eauto; cbn.

  Lemma al_map {O E X} (p1 : dparser S1 O E) p2 (f : O -> X) : al (parse p1) (parse p2) -> al (map_parse p1 f) (map_parse p2 f).
  Proof. intros H s1 s2 V. unfold map_parse. eapply agree_bind; [apply H; auto| | |auto]; step_both. Qed.
  Lemma al_map_err {O E X} (p1 : dparser S1 O E) p2 (f : E -> X) : al (parse p1) (parse p2) -> al (map_err_parse p1 f) (map_err_parse p2 f).
  Proof. intros H s1 s2 V. unfold map_err_parse. eapply agree_bind; [apply H; auto| | |auto]; step_both. Qed.
  Lemma al_and_then {O E O' E'} (from : E -> E') (p1 : dparser S1 O E) p2 (f : O -> result O' E') :
    al (parse p1) (parse p2) -> al (and_then_parse from p1 f) (and_then_parse from p2 f).
  Proof.
    intros H s1 s2 V. unfold and_then_parse. eapply agree_bind; [apply H; auto| | |auto]; step_both.
    destruct (f x); cbn; auto.
  Qed.
  Lemma al_unify {E T0 T1 T} (f : T0 -> T) (g : T1 -> T) (p1 : dparser S1 (Either T0 T1) E) p2 :
    al (parse p1) (parse p2) -> al (unify_parse f g p1) (unify_parse f g p2).
  Proof. intros H s1 s2 V. unfold unify_parse. eapply agree_bind; [apply H; auto| | |auto]; step_both. Qed.
  Lemma al_unify_once {E T0 T1 T} (f : T0 -> T) (g : T1 -> T) (p1 : dparser S1 (Either T0 T1) E) p2 :
    al (parse_once p1) (parse_once p2) -> al (unify_parse_once f g p1) (unify_parse_once f g p2).
  Proof.
    intros H s1 s2 V. unfold unify_parse_once. eapply agree_bind; [apply H; auto| | |auto]; step_both.
    destruct x; cbn; auto.
  Qed.
  Lemma al_unify_err {O T0 T1 T} (f : T0 -> T) (g : T1 -> T) (p1 : dparser S1 O (Either T0 T1)) p2 :
    al (parse p1) (parse p2) -> al (unify_err_parse f g p1) (unify_err_parse f g p2).
  Proof. intros H s1 s2 V. unfold unify_err_parse. eapply agree_bind; [apply H; auto| | |auto]; step_both. Qed.
  Lemma al_unify_err_once {O T0 T1 T} (f : T0 -> T) (g : T1 -> T) (p1 : dparser S1 O (Either T0 T1)) p2 :
    al (parse_once p1) (parse_once p2) -> al (unify_err_parse_once f g p1) (unify_err_parse_once f g p2).
  Proof.
    intros H s1 s2 V. unfold unify_err_parse_once. eapply agree_bind; [apply H; auto| | |auto]; step_both.
    destruct e; cbn; auto.
  Qed.
  Lemma al_join {O E O' E'} (p1 : dparser S1 O E) p2 (q1 : dparser S1 O' E') q2 :
    al (parse p1) (parse p2) -> al (parse q1) (parse q2) -> al (join_parse p1 q1) (join_parse p2 q2).
  Proof.
    intros H K s1 s2 V. unfold join_parse. eapply agree_bind; [apply H; auto| | |auto]; step_both.
    match goal with W : pair ?a ?b \/ _ |- _ => destruct W as [W|W]; [|contradiction] end.
    apply agree_step with r1 r2; auto. eapply agree_bind; [apply K; auto| | |auto]; step_both.
  Qed.
  Lemma al_or {O E O' E'} `{ParseError E} `{ParseError E'} (p1 : dparser S1 O E) p2 (q1 : dparser S1 O' E') q2 :
    al (parse p1) (parse p2) -> al (parse q1) (parse q2) -> al (or_parse p1 q1) (or_parse p2 q2).
  Proof.
    intros Hp Hq s1 s2 V. unfold or_parse. eapply agree_bind; [apply Hp; auto| | |auto]; step_both.
    destruct (should_terminate e); cbn; auto. back.
    eapply agree_bind; [apply Hq; auto| | |auto]; step_both.
    destruct (should_terminate e0); cbn; auto.
  Qed.
  Lemma al_optional {O E} `{ParseError E} (p1 : dparser S1 O E) p2 :
    al (parse p1) (parse p2) -> al (optional_parse p1) (optional_parse p2).
  Proof.
    intros Hp s1 s2 V. unfold optional_parse. eapply agree_bind; [apply Hp; auto| | |auto]; step_both.
    destruct (should_terminate e); cbn; auto. back. eauto using (step_refl _ _ CC).
  Qed.
  Lemma al_repeat {O E} `{ParseError E} k (p1 : dparser S1 O E) p2 :
    al (parse p1) (parse p2) -> al (repeat_parse k p1) (repeat_parse k p2).
  Proof.
    intros Hp s1 s2 V. unfold repeat_parse. generalize (@nil O) as buf. revert s1 s2 V.
    induction k as [|k IH]; intros s1 s2 V buf; cbn [repeat_loop]; [exact Logic.I|].
    eapply agree_bind; [apply Hp; auto| | |auto]; step_both.
    - match goal with W : pair ?a ?b \/ _ |- _ => destruct W as [W|W]; [|contradiction] end.
      apply agree_step with r1 r2; auto.
    - destruct (should_terminate e); cbn; auto. back. eauto using (step_refl _ _ CC).
  Qed.
  Lemma al_bin {T TE Op OE Expr} `{ParseError TE} `{ParseError OE} `{Operator Op} (term : T -> Expr) bin max checks k
      (p1 : dparser S1 T TE) p2 (q1 : dparser S1 Op OE) q2 :
    al (parse p1) (parse p2) -> al (parse q1) (parse q2) ->
    al (bin_expr_parse term bin max checks k p1 q1) (bin_expr_parse term bin max checks k p2 q2).
  Proof.
    intros Hp Hq s1 s2 V. unfold bin_expr_parse, parse_impl.
    pose proof (Hp s1 s2 V) as F. destruct (parse p1 s1) as [[x r1|x r1]| | |], (parse p2 s2) as [[y r2|y r2]| | |];
      cbn in F |- *; try contradiction; auto; destruct F as (-> & F); cbn; auto.
    apply agree_step with r1 r2; auto. assert (W : pair r1 r2) by (eapply (step_pair _ _ CC); eauto). clear s1 s2 V F.
    generalize (@nil (Expr * Op)) as stack, (term y) as rhs. revert r1 r2 W.
    induction k as [|k IH]; intros r1 r2 W stack rhs; cbn [bin_loop bind]; [exact Logic.I|].
    pose proof (Hq r1 r2 W) as F. destruct (parse q1 r1) as [[o t1|o t1]| | |], (parse q2 r2) as [[o' t2|o' t2]| | |];
      cbn in F |- *; try contradiction; auto; destruct F as (-> & F); cbn.
    - assert (W2 : pair t1 t2) by (eapply (step_pair _ _ CC); eauto).
      pose proof (Hp t1 t2 W2) as G. destruct (parse p1 t1) as [[z u1|z u1]| | |], (parse p2 t2) as [[z' u2|z' u2]| | |];
        cbn in G |- *; try contradiction; auto; destruct G as (-> & G); cbn.
      + destruct (insert_loop _ _ _ _ _ _ _) as [[stack' rhs']| | |]; cbn; auto.
        assert (G' : step r1 r2 u1 u2) by (eapply (step_trans _ _ CC); eauto).
        apply agree_step with u1 u2; auto. apply IH. eapply (step_pair _ _ CC); eauto.
      + assert (G' : step r1 r2 u1 u2) by (eapply (step_trans _ _ CC); eauto).
        destruct (should_terminate z'); cbn; auto. back. eauto using (step_refl _ _ CC).
    - destruct (should_terminate o'); cbn; auto. back. eauto using (step_refl _ _ CC).
  Qed.

  (** ** Sessions *)
  Definition agree_it {St O E} (s1 : S1) (s2 : S2) (c1 : comp (St * res S1 O E)) (c2 : comp (St * res S2 O E)) : Prop :=
    match c1, c2 with
    | Ret (st1, r1), Ret (st2, r2) => st1 = st2 /\ agr s1 s2 (Ret r1) (Ret r2)
    | Panic, Panic | UB, UB | OutOfFuel, OutOfFuel => True
    | _, _ => False
    end.
  Definition al_it {St O E} (i1 : M_Iter.iter St S1 O E) (i2 : M_Iter.iter St S2 O E) : Prop :=
    it_init i1 = it_init i2 /\
    forall st s1 s2, pair s1 s2 -> agree_it s1 s2 (it_next i1 st s1) (it_next i2 st s2).

  Ltac iter_cases H :=
    let F := fresh in pose proof H as F;
    match type of F with agree_it _ _ ?a ?b =>
      destruct a as [[? [? ?|? ?]]| | |], b as [[? [? ?|? ?]]| | |]; cbn in F |- *; try contradiction; auto;
      try (destruct F as (_ & F); contradiction F);
      try (let F1 := fresh in let F2 := fresh in destruct F as (F1 & F2 & F); subst; cbn; auto)
    end.

  Lemma al_map_each {St O E X} (i1 : M_Iter.iter St S1 O E) i2 (f : O -> X) : al_it i1 i2 ->
    al_it (IT (it_init i1) (map_each_next i1 f)) (IT (it_init i2) (map_each_next i2 f)).
  Proof.
    intros (HI & HN). split; auto. intros st s1 s2 V. cbn. unfold map_each_next. iter_cases (HN st s1 s2 V).
  Qed.
  Lemma al_map_while {St O E X} (i1 : M_Iter.iter St S1 O E) i2 (f : O -> option X) : al_it i1 i2 ->
    al_it (IT (it_init i1) (map_while_next i1 f)) (IT (it_init i2) (map_while_next i2 f)).
  Proof.
    intros (HI & HN). split; auto. intros st s1 s2 V. cbn. unfold map_while_next. iter_cases (HN st s1 s2 V).
  Qed.
  Lemma al_try_map_each {St O E X E'} `{ParseError E'} (from : E -> E') (i1 : M_Iter.iter St S1 O E) i2 (f : O -> result X E') : al_it i1 i2 ->
    al_it (IT (it_init i1) (try_map_each_next from i1 f)) (IT (it_init i2) (try_map_each_next from i2 f)).
  Proof.
    intros (HI & HN). split; auto. intros st s1 s2 V. cbn. unfold try_map_each_next. iter_cases (HN st s1 s2 V).
    match goal with |- context [match ?o with Some _ => _ | None => _ end] => destruct o as [x|]; cbn; auto end.
    destruct (f x); cbn; auto. destruct (should_terminate e); cbn; auto.
  Qed.
  Lemma al_scan {St O E X St2} (i1 : M_Iter.iter St S1 O E) i2 (a : St2) (f : St2 -> O -> St2 * X) : al_it i1 i2 ->
    al_it (IT (it_init i1, a) (scan_next i1 f)) (IT (it_init i2, a) (scan_next i2 f)).
  Proof.
    intros (HI & HN). split; [cbn; congruence|]. intros (st & b) s1 s2 V. cbn. iter_cases (HN st s1 s2 V).
    match goal with |- context [match ?o with Some _ => _ | None => _ end] => destruct o as [x|]; cbn; auto end.
    destruct (f b x); cbn; auto.
  Qed.
  Lemma al_take {St O E} (i1 : M_Iter.iter St S1 O E) i2 (n : nat) : al_it i1 i2 ->
    al_it (IT (it_init i1, n) (take_next i1)) (IT (it_init i2, n) (take_next i2)).
  Proof.
    intros (HI & HN). split; [cbn; congruence|]. intros (st & b) s1 s2 V. cbn. destruct (b =? 0); cbn; [eauto using (step_refl _ _ CC)|].
    iter_cases (HN st s1 s2 V).
    match goal with |- context [match ?o with Some _ => _ | None => _ end] => destruct o as [x|]; cbn; auto end.
  Qed.
  Lemma al_optional_next {O E} `{ParseError E} (p1 : dparser S1 O E) p2 : al (parse p1) (parse p2) ->
    al_it (IT true (optional_next p1)) (IT true (optional_next p2)).
  Proof.
    intros HP. split; auto. intros st s1 s2 V. cbn. unfold optional_next. destruct st; cbn; [|eauto using (step_refl _ _ CC)].
    pose proof (HP s1 s2 V) as F. destruct (parse p1 s1) as [[x r1|x r1]| | |], (parse p2 s2) as [[y r2|y r2]| | |];
      cbn in F |- *; try contradiction; auto; destruct F as (-> & F); cbn; auto.
    destruct (should_terminate y); cbn; auto. back. eauto using (step_refl _ _ CC).
  Qed.
  Lemma al_repeat_next {O E} `{ParseError E} (p1 : dparser S1 O E) p2 : al (parse p1) (parse p2) ->
    al_it (IT tt (repeat_next p1)) (IT tt (repeat_next p2)).
  Proof.
    intros HP. split; auto. intros st s1 s2 V. cbn. unfold repeat_next.
    pose proof (HP s1 s2 V) as F. destruct (parse p1 s1) as [[x r1|x r1]| | |], (parse p2 s2) as [[y r2|y r2]| | |];
      cbn in F |- *; try contradiction; auto; destruct F as (-> & F); cbn; auto.
    destruct (should_terminate y); cbn; auto. back. eauto using (step_refl _ _ CC).
  Qed.
  Lemma al_fold {St O E Acc} k (i1 : M_Iter.iter St S1 O E) i2 (f : Acc -> O -> Acc) (a : Acc) : al_it i1 i2 ->
    al (fun s => fold_loop k i1 f (it_init i1) a s) (fun s => fold_loop k i2 f (it_init i2) a s).
  Proof.
    intros (HI & HN). rewrite HI. generalize (it_init i2) as st. revert a.
    induction k as [|k IH]; intros a st s1 s2 V; cbn [fold_loop]; [exact Logic.I|].
    iter_cases (HN st s1 s2 V).
    match goal with |- context [match ?o with Some _ => _ | None => _ end] => destruct o as [x|]; cbn; auto end.
    eapply agree_step; eauto. apply (IH (f a x)). eapply (step_pair _ _ CC); eauto.
  Qed.
  Lemma al_collect {St O E C} (c0 : C) (ext : C -> O -> C) k (i1 : M_Iter.iter St S1 O E) i2 : al_it i1 i2 ->
    al (fun s => collect_loop ext k i1 (it_init i1) c0 s) (fun s => collect_loop ext k i2 (it_init i2) c0 s).
  Proof.
    intros (HI & HN). rewrite HI. generalize (it_init i2) as st. revert c0.
    induction k as [|k IH]; intros c0 st s1 s2 V; cbn [collect_loop]; [exact Logic.I|].
    iter_cases (HN st s1 s2 V).
    - match goal with |- context [match ?o with Some _ => _ | None => _ end] => destruct o as [x|]; cbn; auto end.
      + eapply agree_step; eauto. apply (IH (ext c0 x)). eapply (step_pair _ _ CC); eauto.
      + back. eauto using (step_refl _ _ CC).
    - back. eauto using (step_refl _ _ CC).
  Qed.

  (** ** Expressions *)
  Variable leaf : Type -> Type -> Type.
  Variable prim1 : forall O E, leaf O E -> dparser S1 O E.
  Variable prim2 : forall O E, leaf O E -> dparser S2 O E.
  Hypothesis prims_agree : forall O E (l : leaf O E), agreeing pair step (prim1 O E l) (prim2 O E l).

  Definition both {O E} (p1 : dparser S1 O E) (p2 : dparser S2 O E) : Prop :=
    al (parse p1) (parse p2) /\ al (parse_once p1) (parse_once p2).
  Definition both_it {St O E} (p1 : diter St S1 O E) (p2 : diter St S2 O E) : Prop :=
    al_it (parse_iterative p1) (parse_iterative p2) /\ al_it (parse_iterative_once p1) (parse_iterative_once p2).
  Definition once {S O E} (p : dparser S O E) : dparser S O E := DP (parse_once p) (parse_once p).

  Scheme pexp_mut := Induction for pexp Sort Prop with iexp_mut := Induction for iexp Sort Prop.

  Lemma expressions_agree : forall O E (x : pexp leaf O E), both (build leaf prim1 x) (build leaf prim2 x).
  Proof.
    apply (pexp_mut leaf (fun O E x => both (build leaf prim1 x) (build leaf prim2 x))
                         (fun St O E y => both_it (build_iter leaf prim1 y) (build_iter leaf prim2 y))); cbn [build build_iter].
    - intros O E l. split; intros s1 s2 V; apply (prims_agree O E l); auto.
    - intros O0 E0 O1 E1 P0 P1 p (A & A') q (B & B'). split; [now apply al_or|].
      apply (al_or (once (build leaf prim1 p)) (once (build leaf prim2 p)) (once (build leaf prim1 q)) (once (build leaf prim2 q))); auto.
    - intros O0 E0 O1 E1 p (A & A') q (B & B'). split; [now apply al_join|].
      apply (al_join (once (build leaf prim1 p)) (once (build leaf prim2 p)) (once (build leaf prim1 q)) (once (build leaf prim2 q))); auto.
    - intros O E X p (A & A') f. split; [now apply al_map|].
      apply (al_map (once (build leaf prim1 p)) (once (build leaf prim2 p))); auto.
    - intros O E X p (A & A') f. split; [now apply al_map_err|].
      apply (al_map_err (once (build leaf prim1 p)) (once (build leaf prim2 p))); auto.
    - intros O E O' E' from p (A & A') f. split; [now apply al_and_then|].
      apply (al_and_then from (once (build leaf prim1 p)) (once (build leaf prim2 p))); auto.
    - intros E T0 T1 T f g p (A & A'). split; [now apply al_unify|now apply al_unify_once].
    - intros O T0 T1 T f g p (A & A'). split; [now apply al_unify_err|now apply al_unify_err_once].
    - intros O E p (A & A'). split; exact A.
    - intros O E p (A & A'). split; auto.
    - intros O E PE p (A & A'). split; [now apply al_optional|].
      apply (al_optional (once (build leaf prim1 p)) (once (build leaf prim2 p))); auto.
    - intros O E PE k p (A & A'). split; now apply al_repeat.
    - intros St O E Acc k y (A & A') a f. split; now apply al_fold.
    - intros St O E C c0 ext k y (A & A'). split; now apply al_collect.
    - intros T TE Op OE Expr PT PO OP term bin max checks k p (A & A') q (B & B'). split; now apply al_bin.
    - intros O E PE p (A & A'). split; [now apply al_optional_next|].
      apply (al_optional_next (once (build leaf prim1 p)) (once (build leaf prim2 p))); auto.
    - intros O E PE p (A & A'). split; apply al_repeat_next; auto.
    - intros St O E X y (A & A') f. split; now apply al_map_each.
    - intros St O E X y (A & A') f. split; now apply al_map_while.
    - intros St O E X E' PE from y (A & A') f. split; now apply al_try_map_each.
    - intros St O E X St2 y (A & A') a f. split; now apply al_scan.
    - intros St O E y (A & A') n. split; now apply al_take.
    - intros St O E y (A & A'). split; exact A.
  Qed.
End Agree.

Lemma same_agree {S1 S2 O E} (step : S1 -> S2 -> S1 -> S2 -> Prop) s1 s2 (c1 : comp (res S1 O E)) c2 :
  same step false s1 s2 c1 c2 -> agree step s1 s2 c1 c2.
Proof. destruct c1 as [[]| | |], c2 as [[]| | |]; cbn; auto; discriminate. Qed.

(** ** Measured *)
Lemma m_corresponds {T M} {MM : Meter M (list T)} : corresponds (m_pair (T := T) (M := M)) m_step.
Proof.
  constructor.
  - intros s1 s2 r1 r2 _ (d & _ & _ & ->). reflexivity.
  - apply m_refl.
  - intros s1 s2 r1 r2 q1 q2 (d & D & E & ->) (d' & D' & E' & ->). exists (d ++ d'). cbn [me_meter].
    rewrite concat_app. split; [now rewrite D, D', app_assoc|]. split; [|f_equal; now rewrite fold_left_app].
    rewrite E', E. cbn. now rewrite app_length, Nat.add_assoc.
  - intros [m b] s r1 r2 V _. reflexivity.
  - intros s1 s2 r1 r2 _ (d & D & E & ->). apply slice_rewind_later. exists (concat d). auto.
Qed.
Lemma m_leaves {T M} {MM : Meter M (list T)} (eqb : T -> T -> bool) O E (l : item_leaf T O E) :
  agreeing (m_pair (T := T) (M := M)) m_step (items_of (item_prims eqb) O E l) (items_of (item_prims eqb) O E l).
Proof.
  intros s1 s2 V. destruct l; cbn [items_of]; split; apply same_agree;
    first [exact (m_any eqb s1 s2 V)|exact (m_the eqb _ s1 s2 V)|exact (m_atom eqb _ s1 s2 V)].
Qed.
Lemma mt_corresponds {M} {MM : Meter M str} : corresponds (mt_pair (M := M)) mt_step.
Proof.
  constructor.
  - intros s1 s2 r1 r2 _ (d & _ & _ & ->). reflexivity.
  - apply mt_refl.
  - intros s1 s2 r1 r2 q1 q2 (d & D & E & ->) (d' & D' & E' & ->). exists (d ++ d'). cbn [me_meter].
    rewrite concat_app. split; [now rewrite D, D', app_assoc|]. split; [|f_equal; now rewrite fold_left_app].
    rewrite E', E. cbn. now rewrite chars_len_app, Nat.add_assoc.
  - intros [m b] s r1 r2 V _. reflexivity.
  - intros s1 s2 r1 r2 _ (d & D & E & ->). apply strref_rewind_later. exists (concat d). auto.
Qed.
Lemma mt_leaves {M} {MM : Meter M str} O E (l : item_leaf char O E) :
  agreeing (mt_pair (M := M)) mt_step (items_of text_prims O E l) (items_of text_prims O E l).
Proof.
  intros s1 s2 V. destruct l; cbn [items_of]; split; apply same_agree;
    first [exact (mt_any s1 s2 V)|exact (mt_the _ s1 s2 V)|exact (mt_atom _ s1 s2 V)].
Qed.

(** ** The same items elsewhere in memory *)
Definition w_pair {T} (s1 s2 : slice T) : Prop := sl_data s1 = sl_data s2.
Definition w_step {T} (s1 s2 r1 r2 : slice T) : Prop := exists d,
  sl_data s1 = d ++ sl_data r1 /\ r1 = Slice (sl_alloc s1) (sl_off s1 + length d) (sl_data r1) /\
  r2 = Slice (sl_alloc s2) (sl_off s2 + length d) (sl_data r1).
Lemma w_refl {T} (s1 s2 : slice T) : w_pair s1 s2 -> w_step s1 s2 s1 s2.
Proof. destruct s1, s2. unfold w_pair. cbn. intros ->. exists []. cbn. rewrite !Nat.add_0_r. auto. Qed.
Lemma w_corresponds {T} : corresponds (w_pair (T := T)) w_step.
Proof.
  constructor.
  - intros s1 s2 r1 r2 _ (d & _ & _ & ->). reflexivity.
  - apply w_refl.
  - intros s1 s2 r1 r2 q1 q2 (d & D & E & F) (d' & D' & E' & F'). exists (d ++ d').
    split; [now rewrite D, D', app_assoc|]. rewrite E', F', E, F. cbn. rewrite app_length, !Nat.add_assoc. auto.
  - intros s1 s2 r1 r2 _ (d & D & E & F). apply slice_rewind_later. exists d. auto.
  - intros s1 s2 r1 r2 V (d & D & E & F). apply slice_rewind_later. exists d. subst r2. cbn. split; auto. now rewrite <- D.
Qed.
Lemma w_advance {T} n {O E} (o : O) (s1 s2 : slice T) : w_pair s1 s2 ->
  agree (E := E) w_step s1 s2 (r <- advance s1 n ;; done o r) (r <- advance s2 n ;; done o r).
Proof.
  unfold w_pair. cbn. unfold slice_advance. intros <-.
  destruct (Nat.leb_spec n (length (sl_data s1))) as [L|L]; cbn; auto. split; auto.
  exists (firstn n (sl_data s1)). cbn. rewrite firstn_skipn, firstn_length, Nat.min_l by lia. auto.
Qed.
Lemma w_leaves {T} (eqb : T -> T -> bool) O E (l : item_leaf T O E) :
  agreeing (w_pair (T := T)) w_step (items_of (item_prims eqb) O E l) (items_of (item_prims eqb) O E l).
Proof.
  assert (K : forall s1 s2, w_pair s1 s2 -> agree w_step s1 s2 (parse (items_of (item_prims eqb) O E l) s1) (parse (items_of (item_prims eqb) O E l) s2)).
  { intros s1 s2 V. pose proof (w_refl s1 s2 V) as W. destruct l; cbn.
    - unfold any_item_parse. cbn. rewrite <- V. destruct (sl_data s1) eqn:D; cbn; auto. now apply (w_advance 1).
    - unfold the_item_parse. cbn. rewrite <- V. destruct (sl_data s1) eqn:D; cbn; auto.
      destruct (eqb t0 t); cbn; auto. now apply (w_advance 1).
    - unfold atom_parse. cbn. rewrite <- V. destruct (_ <=? _).
      + destruct (list_split_at _ _) as [[a b]| | |]; cbn; auto. destruct (list_eqb eqb a l); cbn; auto. now apply (w_advance (length l)).
      + destruct (list_split_at _ _) as [[a b]| | |]; cbn; auto. destruct (negb _); cbn; auto. }
  intros s1 s2 V. split; [now apply K|]. destruct l; now apply K.
Qed.

(** ... and the same text. *)
Definition wt_pair (s1 s2 : strref) : Prop := sr_str s1 = sr_str s2.
Definition wt_step (s1 s2 r1 r2 : strref) : Prop := exists d,
  chars (sr_str s1) = d ++ chars (sr_str r1) /\ r1 = StrRef (sr_alloc s1) (sr_off s1 + chars_len d) (sr_str r1) /\
  r2 = StrRef (sr_alloc s2) (sr_off s2 + chars_len d) (sr_str r1).
Lemma wt_refl s1 s2 : wt_pair s1 s2 -> wt_step s1 s2 s1 s2.
Proof. destruct s1, s2. unfold wt_pair. cbn. intros ->. exists []. cbn. rewrite !Nat.add_0_r. auto. Qed.
Lemma wt_corresponds : corresponds wt_pair wt_step.
Proof.
  constructor.
  - intros s1 s2 r1 r2 _ (d & _ & _ & ->). reflexivity.
  - apply wt_refl.
  - intros s1 s2 r1 r2 q1 q2 (d & D & E & F) (d' & D' & E' & F'). exists (d ++ d').
    split; [now rewrite D, D', app_assoc|]. rewrite E', F', E, F. cbn. rewrite chars_len_app, !Nat.add_assoc. auto.
  - intros s1 s2 r1 r2 _ (d & D & E & F). apply strref_rewind_later. exists d. auto.
  - intros s1 s2 r1 r2 V (d & D & E & F). apply strref_rewind_later. exists d. subst r2. cbn. split; auto. now rewrite <- D, V.
Qed.
Lemma wt_advance a b {O E} (o : O) s1 s2 : wt_pair s1 s2 -> chars (sr_str s1) = a ++ b ->
  agree (E := E) wt_step s1 s2 (r <- advance s1 (chars_len a) ;; done o r) (r <- advance s2 (chars_len a) ;; done o r).
Proof.
  intros V H. pose proof H as H'. rewrite V in H'. cbn. rewrite (strref_advance_at _ _ _ H), (strref_advance_at _ _ _ H'). cbn.
  split; auto. exists a. cbn. auto.
Qed.
Local Arguments str_len : simpl never.
Local Arguments str_eqb : simpl never.
Local Arguments chars_len : simpl never.
Lemma wt_leaves O E (l : item_leaf char O E) :
  agreeing wt_pair wt_step (items_of text_prims O E l) (items_of text_prims O E l).
Proof.
  assert (K : forall s1 s2, wt_pair s1 s2 -> agree wt_step s1 s2 (parse (items_of text_prims O E l) s1) (parse (items_of text_prims O E l) s2)).
  { intros s1 s2 V. pose proof (wt_refl s1 s2 V) as W. destruct l; cbn.
    - unfold any_char_parse. cbn. rewrite <- V. destruct (chars (sr_str s1)) as [|i d] eqn:D; cbn; auto.
      rewrite chars_len_one. now apply (wt_advance [i] d).
    - unfold the_char_parse. cbn. rewrite <- V. destruct (chars (sr_str s1)) as [|i d] eqn:D; cbn; auto.
      destruct (N.eqb_spec i c) as [<-|]; cbn; auto. rewrite chars_len_one. now apply (wt_advance [i] d).
    - unfold atom_parse. cbn. rewrite <- V. destruct (_ <=? _).
      + destruct (str_split_at (sr_str s1) (str_len (Str l))) as [[[a] b]| | |] eqn:C; cbn; auto.
        unfold str_split_at in C. destruct (split_chars _ _) as [[a' b']|] eqn:C'; [|discriminate]. injection C as -> <-.
        apply split_chars_sound in C'. destruct C' as (C & L).
        destruct (str_eqb (Str a) (Str l)) eqn:EQ; [|cbn; auto].
        apply str_eqb_eq in EQ. injection EQ as ->. now apply (wt_advance l b').
      + destruct (str_split_at _ _) as [[a b]| | |]; cbn; auto. destruct (negb _); cbn; auto. }
  intros s1 s2 V. split; [now apply K|]. destruct l; now apply K.
Qed.
