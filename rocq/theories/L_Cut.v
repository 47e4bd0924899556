(** * L_Cut: it does not matter where the items come from. *)
From Verif Require Export S_Cut L_Why L_PegOn P_Any L_Cache.

Section Two.
  Context {S1 A1 S2 A2 T : Type} {R1 : RewindSequence S1 A1} {R2 : RewindSequence S2 A2}.
  Context (P1 : prims S1 T) (P2 : prims S2 T) (cont1 : S1 -> list T) (cont2 : S2 -> list T)
          (later1 : S1 -> S1 -> Prop) (later2 : S2 -> S2 -> Prop).
  Context (I1 : reads_items P1 cont1 later1) (I2 : reads_items P2 cont2 later2).
  Context (dec : forall x y : T, {x = y} + {x <> y}).

  Definition c_pair (s1 : S1) (s2 : S2) : Prop := cont1 s1 = cont2 s2.
  Definition c_step (s1 : S1) (s2 : S2) (r1 : S1) (r2 : S2) : Prop := later1 s1 r1 /\ later2 s2 r2 /\ cont1 r1 = cont2 r2.

  Lemma c_corresponds : corresponds c_pair c_step.
  Proof.
    destruct (ri_rewind _ _ _ I1) as [X1 Y1 Z1], (ri_rewind _ _ _ I2) as [X2 Y2 Z2]. constructor.
    - intros s1 s2 r1 r2 _ (_ & _ & V). exact V.
    - intros s1 s2 V. split; [apply X1|]. split; [apply X2|exact V].
    - intros s1 s2 r1 r2 q1 q2 (B1 & C1 & _) (B2 & C2 & V). split; [eapply Y1; eauto|]. split; [eapply Y2; eauto|exact V].
    - intros s1 s2 r1 r2 _ (X & _). now apply Z1.
    - intros s1 s2 r1 r2 _ (_ & X & _). now apply Z2.
  Qed.

  Lemma c_leaves O E (l : single_leaf T O E) : agreeing c_pair c_step (singles_of P1 O E l) (singles_of P2 O E l).
  Proof.
    intros s1 s2 V. unfold c_pair in V.
    assert (Z : c_step s1 s2 s1 s2) by (split; [apply (ri_rewind _ _ _ I1)|split; [apply (ri_rewind _ _ _ I2)|exact V]]).
    assert (K : agree c_step s1 s2 (parse (singles_of P1 O E l) s1) (parse (singles_of P2 O E l) s2)).
    { destruct l as [|x]; cbn.
      - destruct (cont1 s1) as [|x l] eqn:C.
        + rewrite (ri_any_not _ _ _ I1 s1 C), (ri_any_not _ _ _ I2 s2 (eq_sym V)). cbn. auto.
        + destruct (ri_any _ _ _ I1 s1 x l C) as (r1 & -> & D1 & L1).
          destruct (ri_any _ _ _ I2 s2 x l (eq_sym V)) as (r2 & -> & D2 & L2). cbn. split; [auto|].
          split; [auto|]. split; [auto|]. congruence.
      - assert (D : (exists l, cont1 s1 = x :: l) \/ forall l, cont1 s1 <> x :: l).
        { destruct (cont1 s1) as [|y l]; [right; discriminate|]. destruct (dec x y) as [->|N0]; [left; eauto|right; congruence]. }
        destruct D as [(l & C)|C].
        + destruct (ri_the _ _ _ I1 s1 x l C) as (r1 & -> & D1 & L1).
          destruct (ri_the _ _ _ I2 s2 x l) as (r2 & -> & D2 & L2); [congruence|]. cbn. split; [auto|].
          split; [auto|]. split; [auto|]. congruence.
        + rewrite (ri_the_not _ _ _ I1 s1 x C), (ri_the_not _ _ _ I2 s2 x); [cbn; auto|]. intros l. rewrite <- V. apply C. }
    split; [exact K|]. destruct l; cbn in *; rewrite ?(ri_any_once _ _ _ I1), ?(ri_any_once _ _ _ I2), ?(ri_the_once _ _ _ I1), ?(ri_the_once _ _ _ I2); exact K.
  Qed.
End Two.

(** ** Which sequences are read item by item *)
Lemma text_reads {S A} {RW : RewindSequence S A} {SQ : Sequence S str} (reach : S -> S -> Prop) :
  lawful_positions reach -> reads_items text_prims text reach.
Proof.
  intros LP. constructor.
  - exact (lp_rewind LP).
  - intros s x l C. pose proof (any_char_exact LP s) as H. rewrite C in H. exact H.
  - intros s C. pose proof (any_char_exact LP s) as H. rewrite C in H. exact H.
  - intros s x l C. exact (proj1 (the_char_exact LP x s) l C).
  - intros s x C. exact (proj2 (the_char_exact LP x s) C).
  - reflexivity.
  - reflexivity.
Qed.

Lemma items_read {S A T} {RW : RewindSequence S A} {SQ : Sequence S (list T)} (eqb : T -> T -> bool) (later : S -> S -> Prop) :
  decides_eq eqb -> lawful_rewind later -> lawful_items (S := S) (T := T) ->
  (forall s s' n, n <= length (content s) -> advance s n = Ret s' -> later s s') ->
  reads_items (item_prims eqb) content later.
Proof.
  intros HE HR HI HL.
  assert (ONE : forall s0 x l, content s0 = x :: l -> exists s', advance s0 1 = Ret s' /\ content s' = l /\ later s0 s').
  { intros s0 x l C. destruct (HI s0 [x] l C) as (s' & E & C'). exists s'. split; [exact E|]. split; [exact C'|].
    apply HL with 1; auto. rewrite C. cbn. lia. }
  constructor; auto.
  - intros s0 x l C. destruct (ONE s0 x l C) as (s' & E & L & C'). exists s'. split; [|auto].
    cbn. unfold any_item_parse, content in *. revert C. clear - E. induction (segments s0) as [|[|y g] gs IH]; cbn; intros C; try discriminate; auto.
    injection C as -> _. now rewrite E.
  - intros s0 C. cbn. unfold any_item_parse, content in *. induction (segments s0) as [|[|y g] gs IH]; cbn in *; auto. discriminate.
  - intros s0 x l C. destruct (ONE s0 x l C) as (s' & E & L & C'). exists s'. split; [|auto].
    cbn. unfold the_item_parse, content in *. revert C. clear - E HE. induction (segments s0) as [|[|y g] gs IH]; cbn; intros C; try discriminate; auto.
    injection C as -> _. rewrite (proj2 (HE x x) eq_refl), E. reflexivity.
  - intros s0 x. cbn. unfold the_item_parse, content. induction (segments s0) as [|[|y g] gs IH]; cbn; auto.
    intros C. destruct (eqb y x) eqn:E; auto. apply HE in E. subst y. now destruct (C (g ++ concat gs)).
Qed.

Lemma slice_reads {T} (eqb : T -> T -> bool) : decides_eq eqb ->
  reads_items (S := slice T) (item_prims eqb) (fun s => sl_data s) later_slice.
Proof.
  intros HE. constructor.
  - exact slice_lawful.
  - intros [al off d] x l C. cbn in C. subst d. cbn. unfold any_item_parse. cbn. eexists. split; [reflexivity|]. split; [reflexivity|].
    apply (later_drop al off [x] l).
  - intros [al off d] C. cbn in C. subst d. reflexivity.
  - intros [al off d] x l C. cbn in C. subst d. cbn [p_the item_prims]. rewrite the_slice, (proj2 (HE x x) eq_refl). eexists. split; [reflexivity|].
    split; [reflexivity|]. apply (later_drop al off [x] l).
  - intros [al off [|y d]] x C; cbn in C; [reflexivity|]. cbn [p_the item_prims]. rewrite the_slice.
    destruct (eqb y x) eqn:E; [|reflexivity]. apply HE in E. subst y. now destruct (C d).
  - reflexivity.
  - reflexivity.
Qed.

(** ** Telling, on slices *)
Section Slices.
  Context {T : Type} (eqb : T -> T -> bool) (rules : nat -> gexp T).
  Context (QR : forall i, patterns (fun _ => False) (rules i)).

  Lemma telling_slices fuel : forall e, patterns (fun _ => False) e -> forall s,
    parse (telling_on rules (item_prims eqb) fuel e) s = parse (telling eqb rules fuel e) s.
  Proof.
    induction fuel as [fuel IHf] using lt_wf_ind.
    assert (LOOP : forall p q : dparser (slice T) (wtree T) (why T), (forall s, parse p s = parse q s) ->
      forall k buf s, repeat_loop k p buf s = repeat_loop k q buf s).
    { intros p q H. induction k as [|k IH]; intros buf s; cbn [repeat_loop]; auto. rewrite H.
      destruct (parse q s) as [[]| | |]; cbn; auto. }
    induction e as [|x|p|a IHa b IHb|a IHa b IHb|a IHa|a IHa|a IHa|i]; intros Q s; cbn [patterns] in Q.
    - destruct fuel; reflexivity.
    - destruct fuel; reflexivity.
    - contradiction.
    - destruct Q as (Qa & Qb). specialize (IHa Qa). specialize (IHb Qb). rewrite tell_join.
      transitivity (parse (MapErr (Map (Join (telling_on rules (item_prims eqb) fuel a) (telling_on rules (item_prims eqb) fuel b)) (fun '(x, y) => WPair x y)) of_join) s);
        [destruct fuel; reflexivity|].
      rewrite map_both. cbn [parse Join]. unfold join_parse. rewrite IHa.
      destruct (parse (telling eqb rules fuel a) s) as [[x m|f m]| | |]; cbn [bind fail]; try reflexivity.
      rewrite IHb. destruct (parse (telling eqb rules fuel b) m) as [[? ?|? ?]| | |]; reflexivity.
    - destruct Q as (Qa & Qb). specialize (IHa Qa). specialize (IHb Qb). rewrite tell_or.
      transitivity (parse (MapErr (Map (Or (telling_on rules (item_prims eqb) fuel a) (telling_on rules (item_prims eqb) fuel b))
        (fun e => match e with First x => WTook x | Last x => WInstead x end)) of_or) s); [destruct fuel; reflexivity|].
      rewrite map_both. cbn [parse Or]. unfold or_parse. rewrite IHa.
      destruct (parse (telling eqb rules fuel a) s) as [[x m|f m]| | |]; cbn [bind fail done]; try reflexivity.
      unfold should_terminate, pe_why. destruct (grave f); cbn [negb]; [reflexivity|].
      cbn [rewind anchor slice_rewind_sequence].
      destruct (slice_rewind false m s) as [s'| | |]; cbn [bind]; try reflexivity. rewrite IHb.
      destruct (parse (telling eqb rules fuel b) s') as [[? ?|g ?]| | |]; try reflexivity. cbn [bind]. now destruct (grave g).
    - specialize (IHa Q). rewrite tell_opt.
      transitivity (parse (Map (Optional (telling_on rules (item_prims eqb) fuel a)) (fun r => match r with ROk x => WSome x | RErr f => (WNone f : wtree T) end)) s);
        [destruct fuel; reflexivity|].
      cbn [parse Map]. unfold map_parse. cbn [parse Optional]. unfold optional_parse. rewrite IHa.
      destruct (parse (telling eqb rules fuel a) s) as [[x m|f m]| | |]; cbn [bind fail done]; try reflexivity.
      unfold should_terminate, pe_why. destruct (grave f); cbn [negb]; [reflexivity|].
      cbn [rewind anchor slice_rewind_sequence].
      destruct (slice_rewind false m s) as [s'| | |]; reflexivity.
    - specialize (IHa Q). rewrite tell_rep.
      transitivity (parse (Map (Repeat fuel (telling_on rules (item_prims eqb) fuel a)) (fun '(l, f) => WMany l f)) s);
        [destruct fuel; reflexivity|].
      cbn [parse Map]. unfold map_parse. cbn [parse Repeat]. unfold repeat_parse. rewrite (LOOP _ _ IHa).
      destruct (repeat_loop fuel (telling eqb rules fuel a) [] s) as [[[] ?|? ?]| | |]; reflexivity.
    - specialize (IHa Q). rewrite tell_cut.
      transitivity (parse (MapErr (MapErr (telling_on rules (item_prims eqb) fuel a) (MkFatal (E := why T))) of_fatal) s); [destruct fuel; reflexivity|].
      cbn [parse MapErr]. unfold map_err_parse. cbn [parse MapErr]. unfold map_err_parse. rewrite IHa.
      destruct (parse (telling eqb rules fuel a) s) as [[]| | |]; reflexivity.
    - rewrite tell_ref. destruct fuel as [|fuel]; [reflexivity|].
      transitivity (parse (Boxed (telling_on rules (item_prims eqb) fuel (rules i))) s); [reflexivity|].
      cbn [parse Boxed]. apply IHf; auto.
  Qed.
End Slices.
