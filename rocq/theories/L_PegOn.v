(** * L_PegOn: a grammar does the same over two sequences whose item parsers do
    the same. *)
From Verif Require Export S_PegOn L_Peg.

Section Sim.
  Context {S1 A1 S2 A2 T : Type} {R1 : RewindSequence S1 A1} {R2 : RewindSequence S2 A2}.
  Context (P1 : prims S1 T) (P2 : prims S2 T) (rules : nat -> gexp T).

  (** Two positions that correspond, and the positions reached from them.
      [crash]: the first is allowed to panic on its own. *)
  Variable pair : S1 -> S2 -> Prop.
  Variable step : S1 -> S2 -> S1 -> S2 -> Prop.
  Variable crash : bool.
  Variable Q : list T -> Prop.

  Definition same {O E} (s1 : S1) (s2 : S2) (c1 : comp (res S1 O E)) (c2 : comp (res S2 O E)) : Prop :=
    match c1, c2 with
    | Ret (Ok x r1), Ret (Ok y r2) => x = y /\ step s1 s2 r1 r2
    | Ret (Err x r1), Ret (Err y r2) => x = y /\ step s1 s2 r1 r2
    | Panic, Panic | UB, UB | OutOfFuel, OutOfFuel => True
    | Panic, _ => crash = true
    | _, _ => False
    end.

  Hypothesis step_pair : forall s1 s2 r1 r2, pair s1 s2 -> step s1 s2 r1 r2 -> pair r1 r2.
  Hypothesis step_refl : forall s1 s2, pair s1 s2 -> step s1 s2 s1 s2.
  Hypothesis step_trans : forall s1 s2 r1 r2 q1 q2, step s1 s2 r1 r2 -> step r1 r2 q1 q2 -> step s1 s2 q1 q2.
  Hypothesis back1 : forall s1 s2 r1 r2, pair s1 s2 -> step s1 s2 r1 r2 -> rewind r1 (anchor s1) = Ret s1.
  Hypothesis back2 : forall s1 s2 r1 r2, pair s1 s2 -> step s1 s2 r1 r2 -> rewind r2 (anchor s2) = Ret s2.
  Hypothesis any_ok : forall s1 s2, pair s1 s2 -> same s1 s2 (parse (p_any P1) s1) (parse (p_any P2) s2).
  Hypothesis the_ok : forall x s1 s2, pair s1 s2 -> same s1 s2 (parse (p_the P1 x) s1) (parse (p_the P2 x) s2).
  Hypothesis atom_ok : forall p s1 s2, Q p -> pair s1 s2 -> same s1 s2 (parse (p_atom P1 p) s1) (parse (p_atom P2 p) s2).

  Definition alike {O E} (p1 : dparser S1 O E) (p2 : dparser S2 O E) : Prop :=
    forall s1 s2, pair s1 s2 -> same s1 s2 (parse p1 s1) (parse p2 s2).

  Lemma same_panic {O E} s1 s2 (c : comp (res S2 O E)) : crash = true -> same s1 s2 Panic c.
  Proof. intros C. destruct c; cbn; auto. Qed.

  Lemma same_step {O E} s1 s2 q1 q2 (c1 : comp (res S1 O E)) (c2 : comp (res S2 O E)) :
    step s1 s2 q1 q2 -> same q1 q2 c1 c2 -> same s1 s2 c1 c2.
  Proof.
    intros H. destruct c1 as [[]| | |], c2 as [[]| | |]; cbn; auto; intros (-> & K); split; eauto.
  Qed.

  (** Continue after two runs that are the same. *)
  Lemma same_bind {O E O' E'} s1 s2 (c1 : comp (res S1 O E)) (c2 : comp (res S2 O E))
      (k1 : res S1 O E -> comp (res S1 O' E')) (k2 : res S2 O E -> comp (res S2 O' E')) :
    same s1 s2 c1 c2 ->
    (forall x r1 r2, step s1 s2 r1 r2 -> same s1 s2 (k1 (Ok x r1)) (k2 (Ok x r2))) ->
    (forall e r1 r2, step s1 s2 r1 r2 -> same s1 s2 (k1 (Err e r1)) (k2 (Err e r2))) ->
    same s1 s2 (bind c1 k1) (bind c2 k2).
  Proof.
    intros H HO HE. destruct c1 as [[x r1|e r1]| | |], c2 as [[y r2|f r2]| | |]; cbn in H |- *; try contradiction; auto;
      try (destruct H as (-> & H); auto); apply same_panic; auto.
  Qed.

  Lemma alike_map {O E U} (p1 : dparser S1 O E) p2 (f : O -> U) : alike p1 p2 -> alike (Map p1 f) (Map p2 f).
  Proof.
    intros H s1 s2 V. cbn. unfold map_parse. eapply same_bind; [apply H; auto| |]; intros; cbn; auto.
  Qed.
  Lemma alike_map_err {O E U} (p1 : dparser S1 O E) p2 (f : E -> U) : alike p1 p2 -> alike (MapErr p1 f) (MapErr p2 f).
  Proof.
    intros H s1 s2 V. cbn. unfold map_err_parse. eapply same_bind; [apply H; auto| |]; intros; cbn; auto.
  Qed.
  Lemma alike_join {O E O' E'} (p1 : dparser S1 O E) p2 (q1 : dparser S1 O' E') q2 :
    alike p1 p2 -> alike q1 q2 -> alike (Join p1 q1) (Join p2 q2).
  Proof.
    intros H K s1 s2 V. cbn. unfold join_parse. eapply same_bind; [apply H; auto| |]; intros; cbn; auto.
    assert (V' : pair r1 r2) by eauto.
    apply same_step with r1 r2; auto. eapply same_bind; [apply K; auto| |]; intros; cbn; auto.
  Qed.
  Lemma alike_or {O E O' E'} `{ParseError E} `{ParseError E'} (p1 : dparser S1 O E) p2 (q1 : dparser S1 O' E') q2 :
    alike p1 p2 -> alike q1 q2 -> alike (Or p1 q1) (Or p2 q2).
  Proof.
    intros Hp Hq s1 s2 V. cbn. unfold or_parse. eapply same_bind; [apply Hp; auto| |]; intros; cbn; auto.
    destruct (should_terminate e); cbn; auto. erewrite back1, back2 by eauto. cbn.
    eapply same_bind; [apply Hq; auto| |]; intros; cbn; auto.
    destruct (should_terminate e0); cbn; auto.
  Qed.
  Lemma alike_optional {O E} `{ParseError E} (p1 : dparser S1 O E) p2 : alike p1 p2 -> alike (Optional p1) (Optional p2).
  Proof.
    intros Hp s1 s2 V. cbn. unfold optional_parse. eapply same_bind; [apply Hp; auto| |]; intros; cbn; auto.
    destruct (should_terminate e); cbn; auto. erewrite back1, back2 by eauto. cbn. auto.
  Qed.
  Lemma alike_repeat {O E} `{ParseError E} k (p1 : dparser S1 O E) p2 : alike p1 p2 -> alike (Repeat k p1) (Repeat k p2).
  Proof.
    intros Hp s1 s2 V. cbn. unfold repeat_parse. generalize (@nil O) as buf. revert s1 s2 V.
    induction k as [|k IH]; intros s1 s2 V buf; cbn [repeat_loop]; [exact Logic.I|].
    eapply same_bind; [apply Hp; auto| |]; intros; cbn; auto.
    - apply same_step with r1 r2; auto. apply IH. eauto.
    - destruct (should_terminate e); cbn; auto. erewrite back1, back2 by eauto. cbn. auto.
  Qed.

  Theorem grammar_same fuel : (forall i, patterns Q (rules i)) ->
    forall e, patterns Q e -> alike (parser_on P1 rules fuel e) (parser_on P2 rules fuel e).
  Proof.
    intros QR. induction fuel as [fuel IHf] using lt_wf_ind.
    assert (REF : forall i, alike (parser_on P1 rules fuel (GRef i)) (parser_on P2 rules fuel (GRef i))).
    { intros i s1 s2 V. destruct fuel as [|fuel]; cbn; auto. unfold boxed_parse. cbn. apply IHf; auto. }
    induction e as [|x|p|a IHa b IHb|a IHa b IHb|a IHa|a IHa|a IHa|i]; cbn [patterns]; intros QE.
    - enough (alike (MapErr (Map (p_any P1) TItem) flatten) (MapErr (Map (p_any P2) TItem) flatten)) by now destruct fuel.
      apply alike_map_err, alike_map. intros s1 s2. apply any_ok.
    - enough (alike (MapErr (Map (p_the P1 x) (fun _ => TUnit)) flatten) (MapErr (Map (p_the P2 x) (fun _ => TUnit : gtree T)) flatten)) by now destruct fuel.
      apply alike_map_err, alike_map. intros s1 s2. apply the_ok.
    - enough (alike (MapErr (Map (p_atom P1 p) (fun _ => TUnit)) flatten) (MapErr (Map (p_atom P2 p) (fun _ => TUnit : gtree T)) flatten)) by now destruct fuel.
      apply alike_map_err, alike_map. intros s1 s2. now apply atom_ok.
    - destruct QE as (QA & QB). enough (alike
        (MapErr (Map (Join (parser_on P1 rules fuel a) (parser_on P1 rules fuel b)) (fun '(x, y) => TPair x y)) flatten)
        (MapErr (Map (Join (parser_on P2 rules fuel a) (parser_on P2 rules fuel b)) (fun '(x, y) => TPair x y)) flatten)) by now destruct fuel.
      apply alike_map_err, alike_map, alike_join; auto.
    - destruct QE as (QA & QB). enough (alike
        (MapErr (Map (Or (parser_on P1 rules fuel a) (parser_on P1 rules fuel b)) (fun e => match e with First x => TFirst x | Last x => TLast x end)) flatten)
        (MapErr (Map (Or (parser_on P2 rules fuel a) (parser_on P2 rules fuel b)) (fun e => match e with First x => TFirst x | Last x => TLast x end)) flatten)) by now destruct fuel.
      apply alike_map_err, alike_map, alike_or; auto.
    - enough (alike
        (Map (Optional (parser_on P1 rules fuel a)) (fun r => match r with ROk x => TSome x | RErr _ => TNone end))
        (Map (Optional (parser_on P2 rules fuel a)) (fun r => match r with ROk x => TSome x | RErr _ => (TNone : gtree T) end))) by now destruct fuel.
      apply alike_map, alike_optional; auto.
    - enough (alike
        (Map (Repeat fuel (parser_on P1 rules fuel a)) (fun '(l, _) => TMany l))
        (Map (Repeat fuel (parser_on P2 rules fuel a)) (fun '(l, _) => TMany l))) by now destruct fuel.
      apply alike_map, alike_repeat; auto.
    - enough (alike (MapErr (parser_on P1 rules fuel a) (fun _ => EFatal)) (MapErr (parser_on P2 rules fuel a) (fun _ => EFatal))) by now destruct fuel.
      apply alike_map_err; auto.
    - apply REF.
  Qed.
End Sim.

Lemma parser_on_slice {T} (eqb : T -> T -> bool) rules fuel e s :
  parse (parser_on (item_prims eqb) rules fuel e) s = parse (parser_of eqb rules fuel e) s.
Proof. reflexivity. Qed.

Lemma parser_on_once {S A T} {RW : RewindSequence S A} (P : prims S T) (rules : nat -> gexp T) fuel :
  (forall s, parse_once (p_any P) s = parse (p_any P) s) ->
  (forall x s, parse_once (p_the P x) s = parse (p_the P x) s) ->
  (forall p s, parse_once (p_atom P p) s = parse (p_atom P p) s) ->
  forall e s, parse_once (parser_on P rules fuel e) s = parse (parser_on P rules fuel e) s.
Proof.
  intros HA HT HP. destruct fuel as [|fuel];
    (induction e as [|x|p|a IHa b IHb|a IHa b IHb|a IHa|a IHa|a IHa|i]; intros s; try reflexivity;
      [cbn; unfold map_err_parse_once, map_err_parse; cbn; unfold map_parse_once, map_parse; now rewrite HA
      |cbn; unfold map_err_parse_once, map_err_parse; cbn; unfold map_parse_once, map_parse; now rewrite HT
      |cbn; unfold map_err_parse_once, map_err_parse; cbn; unfold map_parse_once, map_parse; now rewrite HP
      |..]).
  all: cbn in IHa |- *.
  all: unfold map_err_parse_once, map_err_parse; cbn; unfold map_parse_once, map_parse; cbn;
    unfold join_parse_once, join_parse, or_parse_once, or_parse, optional_parse_once, optional_parse; cbn; rewrite ?IHa; auto.
  all: match goal with |- context [parse ?p ?s] => destruct (parse p s) as [[?|? ?]| | |]; cbn; auto end.
  all: try (cbn in IHb; now rewrite IHb).
  all: try (destruct (should_terminate _); cbn; auto; destruct (rewind _ _); cbn; auto; cbn in IHb; now rewrite IHb).
Qed.

(** ** Measured items *)
Section MeasuredItems.
  Context {T M : Type} {MM : Meter M (list T)} (eqb : T -> T -> bool) (rules : nat -> gexp T).
  Definition m_pair (x : measured M (slice T)) (s : slice T) : Prop := me_base x = s.
  Definition m_step (x : measured M (slice T)) (s : slice T) (y : measured M (slice T)) (s' : slice T) : Prop :=
    exists ds, sl_data s = concat ds ++ sl_data s' /\ s' = Slice (sl_alloc s) (sl_off s + length (concat ds)) (sl_data s') /\
      y = Measured (fold_left meter_advance ds (me_meter x)) s'.

  Lemma m_advance n {O E} (o : O) x s : m_pair x s ->
    same (E := E) m_step false x s (r <- advance x n ;; done o r) (r <- advance s n ;; done o r).
  Proof.
    destruct x as [m b]. unfold m_pair. cbn. intros ->. unfold mslice_advance, slice_advance. cbn.
    destruct (Nat.leb_spec n (length (sl_data s))) as [L|L]; cbn; auto. split; auto.
    exists [firstn n (sl_data s)]. cbn. rewrite app_nil_r, firstn_skipn, firstn_length, Nat.min_l by lia. repeat split.
    f_equal. f_equal. f_equal. lia.
  Qed.

  Lemma m_refl x s : m_pair x s -> m_step x s x s.
  Proof.
    destruct x as [m b], s. unfold m_pair. cbn. intros ->. exists []. cbn. rewrite Nat.add_0_r. repeat split.
  Qed.

  Lemma m_any : forall s1 s2, m_pair s1 s2 -> same m_step false s1 s2 (parse (p_any (item_prims eqb)) s1) (parse (p_any (item_prims eqb)) s2).
  Proof.
    intros s1 s2 V. cbn. unfold any_item_parse. cbn. rewrite V.
      destruct (sl_data s2) as [|i d] eqn:D; cbn; [split; auto; now apply m_refl|]. now apply (m_advance 1).
  Qed.
  Lemma m_the : forall i s1 s2, m_pair s1 s2 -> same m_step false s1 s2 (parse (p_the (item_prims eqb) i) s1) (parse (p_the (item_prims eqb) i) s2).
  Proof.
    intros i s1 s2 V. cbn. unfold the_item_parse. cbn. rewrite V.
      destruct (sl_data s2) as [|j d] eqn:D; cbn; [split; auto; now apply m_refl|].
      destruct (eqb j i); cbn; [now apply (m_advance 1)|]. split; auto. now apply m_refl.
  Qed.
  Lemma m_atom : forall p s1 s2, m_pair s1 s2 -> same m_step false s1 s2 (parse (p_atom (item_prims eqb) p) s1) (parse (p_atom (item_prims eqb) p) s2).
  Proof.
    intros p s1 s2 V. destruct s1 as [m b]. unfold m_pair in V. cbn in V. subst b.
      assert (V : m_pair (Measured m s2) s2) by reflexivity. cbn. unfold atom_parse. cbn.
      destruct (length p <=? length (sl_data s2)).
      + destruct (list_split_at (sl_data s2) (length p)) as [[l r]| | |]; cbn; auto.
        destruct (list_eqb eqb l p); [now apply (m_advance (length p))|]. cbn. split; auto. now apply m_refl.
      + destruct (list_split_at p (length (sl_data s2))) as [[l r]| | |]; cbn; auto.
        destruct (negb _); cbn; split; auto; now apply m_refl.
  Qed.

  Lemma m_same fuel e x s : m_pair x s ->
    same m_step false x s (parse (parser_on (item_prims eqb) rules fuel e) x) (parse (parser_on (item_prims eqb) rules fuel e) s).
  Proof.
    assert (ALL : forall e : gexp T, patterns (fun _ => True) e) by (induction e0; cbn; auto).
    apply grammar_same with (pair := m_pair) (Q := fun _ => True); auto.
    - intros s1 s2 r1 r2 _ (d & _ & _ & ->). reflexivity.
    - apply m_refl.
    - intros s1 s2 r1 r2 q1 q2 (d & D & E & ->) (d' & D' & E' & ->). exists (d ++ d'). cbn [me_meter].
      rewrite concat_app. split; [now rewrite D, D', app_assoc|]. split; [|f_equal; now rewrite fold_left_app].
      rewrite E', E. cbn. now rewrite app_length, Nat.add_assoc.
    - intros s1 s2 r1 r2 _ (d & D & E & ->). apply slice_rewind_later. exists (concat d). auto.
    - apply m_any.
    - apply m_the.
    - intros p s1 s2 _. apply m_atom.
  Qed.
End MeasuredItems.

Lemma meter_pieces {M T} (adv : M -> list T -> M) : compositional adv ->
  forall ds m, fold_left adv ds m = adv m (concat ds).
Proof.
  intros (Z & C). induction ds as [|d ds IH]; intros m; cbn; [now rewrite Z|]. now rewrite IH, C.
Qed.

Lemma read_app {T} (d r : list T) : read (d ++ r) r = d.
Proof. unfold read. rewrite app_length, Nat.add_sub. apply firstn_length_app. Qed.

(** ** Measured text *)
Local Arguments str_len : simpl never.
Local Arguments str_eqb : simpl never.
Local Arguments chars_len : simpl never.
Section MeasuredText.
  Context {M : Type} {MM : Meter M str} (rules : nat -> gexp char).
  Definition mt_pair (x : measured M strref) (s : strref) : Prop := me_base x = s.
  Definition mt_step (x : measured M strref) (s : strref) (y : measured M strref) (s' : strref) : Prop :=
    exists ds, chars (sr_str s) = concat ds ++ chars (sr_str s') /\
      s' = StrRef (sr_alloc s) (sr_off s + chars_len (concat ds)) (sr_str s') /\
      y = Measured (fold_left (fun m d => meter_advance m (Str d)) ds (me_meter x)) s'.

  Lemma mt_advance a b {O E} (o : O) x s : mt_pair x s -> chars (sr_str s) = a ++ b ->
    same (E := E) mt_step false x s (r <- advance x (chars_len a) ;; done o r) (r <- advance s (chars_len a) ;; done o r).
  Proof.
    destruct x as [m t]. unfold mt_pair. cbn. intros -> H. unfold mstr_advance, str_split_at, str_len. cbn.
    rewrite H at 1 2. rewrite Nat.min_r by (rewrite chars_len_app; lia). rewrite split_chars_complete. cbn.
    rewrite (strref_advance_at _ _ _ H). cbn. split; auto. exists [a]. cbn. rewrite app_nil_r. auto.
  Qed.

  Lemma mt_refl x s : mt_pair x s -> mt_step x s x s.
  Proof.
    destruct x as [m b], s. unfold mt_pair. cbn. intros ->. exists []. cbn. rewrite Nat.add_0_r. repeat split.
  Qed.

  Lemma chars_len_one c : len_utf8 c = chars_len [c].
  Proof. unfold chars_len. cbn. lia. Qed.

  Lemma mt_any : forall s1 s2, mt_pair s1 s2 -> same mt_step false s1 s2 (parse (p_any (text_prims)) s1) (parse (p_any (text_prims)) s2).
  Proof.
    intros s1 s2 V. cbn. unfold any_char_parse. cbn. rewrite V.
      destruct (chars (sr_str s2)) as [|i d] eqn:D; cbn; [split; auto; now apply mt_refl|].
      rewrite chars_len_one. now apply (mt_advance [i] d).
  Qed.
  Lemma mt_the : forall i s1 s2, mt_pair s1 s2 -> same mt_step false s1 s2 (parse (p_the (text_prims) i) s1) (parse (p_the (text_prims) i) s2).
  Proof.
    intros i s1 s2 V. cbn. unfold the_char_parse. cbn. rewrite V.
      destruct (chars (sr_str s2)) as [|j d] eqn:D; cbn; [split; auto; now apply mt_refl|].
      destruct (N.eqb_spec j i) as [<-|]; cbn; [|split; auto; now apply mt_refl].
      rewrite chars_len_one. now apply (mt_advance [j] d).
  Qed.
  Lemma mt_atom : forall p s1 s2, mt_pair s1 s2 -> same mt_step false s1 s2 (parse (p_atom (text_prims) p) s1) (parse (p_atom (text_prims) p) s2).
  Proof.
    intros p s1 s2 V. destruct s1 as [m b]. unfold mt_pair in V. cbn in V. subst b.
      assert (V : mt_pair (Measured m s2) s2) by reflexivity. cbn. unfold atom_parse. cbn.
      destruct (str_len (Str p) <=? str_len (sr_str s2)).
      + destruct (str_split_at (sr_str s2) (str_len (Str p))) as [[[l] r]| | |] eqn:C; cbn; auto.
        unfold str_split_at in C. destruct (split_chars _ _) as [[l' r']|] eqn:C'; [|discriminate]. injection C as -> <-.
        apply split_chars_sound in C'. destruct C' as (C & L).
        destruct (str_eqb (Str l) (Str p)) eqn:EQ; [|cbn; split; auto; now apply mt_refl].
        apply str_eqb_eq in EQ. injection EQ as ->. now apply (mt_advance p r').
      + destruct (str_split_at (Str p) (str_len (sr_str s2))) as [[l r]| | |]; cbn; auto.
        destruct (negb _); cbn; split; auto; now apply mt_refl.
  Qed.

  Lemma mt_same fuel e x s : mt_pair x s ->
    same mt_step false x s (parse (parser_on text_prims rules fuel e) x) (parse (parser_on text_prims rules fuel e) s).
  Proof.
    assert (ALL : forall e : gexp char, patterns (fun _ => True) e) by (induction e0; cbn; auto).
    apply grammar_same with (pair := mt_pair) (Q := fun _ => True); auto.
    - intros s1 s2 r1 r2 _ (d & _ & _ & ->). reflexivity.
    - apply mt_refl.
    - intros s1 s2 r1 r2 q1 q2 (d & D & E & ->) (d' & D' & E' & ->). exists (d ++ d'). cbn [me_meter].
      rewrite concat_app. split; [now rewrite D, D', app_assoc|]. split; [|f_equal; now rewrite fold_left_app].
      rewrite E', E. cbn. now rewrite chars_len_app, Nat.add_assoc.
    - intros s1 s2 r1 r2 _ (d & D & E & ->). apply strref_rewind_later. exists (concat d). auto.
    - apply mt_any.
    - apply mt_the.
    - intros p s1 s2 _. apply mt_atom.
  Qed.
End MeasuredText.

(** ** Any sequence against the flat list of what is left of it *)
Section Flat.
  Context {S A T : Type} {RW : RewindSequence S A} (P : prims S T) (eqb : T -> T -> bool) (rules : nat -> gexp T).
  Context (cont : S -> list T) (later : S -> S -> Prop) (crash : bool) (Q : list T -> Prop) (t0 : list T).
  Hypothesis eqb_ok : decides_eq eqb.
  Hypothesis laws : lawful_rewind later.

  Definition f_pair (s : S) (l : slice T) : Prop := cont s = sl_data l /\ exists a, t0 = a ++ sl_data l.
  Definition f_step (s : S) (l : slice T) (s' : S) (l' : slice T) : Prop :=
    later s s' /\ later_slice l l' /\ cont s' = sl_data l'.

  (** An item parser that takes [d], or misses without moving. *)
  Definition takes {O} (r : comp (res S O (Miss unit))) (o : O) (s : S) (rest : list T) : Prop :=
    exists s', r = Ret (Ok o s') /\ later s s' /\ cont s' = rest.
  Definition misses {O} (r : comp (res S O (Miss unit))) (s : S) : Prop := r = Ret (Err (MkMiss tt) s).

  Hypothesis any_takes : forall s x l, cont s = x :: l -> takes (parse (p_any P) s) x s l.
  Hypothesis any_misses : forall s, cont s = [] -> misses (parse (p_any P) s) s.
  Hypothesis the_takes : forall s x l, cont s = x :: l -> takes (parse (p_the P x) s) tt s l.
  Hypothesis the_misses : forall s x, (forall l, cont s <> x :: l) -> misses (parse (p_the P x) s) s.
  Hypothesis atom_takes : forall p s l, Q p -> cont s = p ++ l -> takes (parse (p_atom P p) s) tt s l.
  Hypothesis atom_misses : forall p s a, Q p -> t0 = a ++ cont s -> (forall l, cont s <> p ++ l) ->
    misses (parse (p_atom P p) s) s \/ (parse (p_atom P p) s = Panic /\ crash = true).

  Lemma f_refl s l : f_pair s l -> f_step s l s l.
  Proof. intros (C & _). split; [apply laws|]. split; [apply later_slice_refl|auto]. Qed.

  Lemma f_same fuel e s l : (forall i, patterns Q (rules i)) -> patterns Q e -> f_pair s l ->
    same f_step crash s l (parse (parser_on P rules fuel e) s) (parse (parser_of eqb rules fuel e) l).
  Proof.
    intros QR QE. rewrite <- parser_on_slice.
    apply grammar_same with (pair := f_pair) (Q := Q); auto; clear fuel e s l QR QE.
    - intros s l s' l' (C & a & E) (_ & (d & D & _) & C'). split; auto. exists (a ++ d). now rewrite E, D, app_assoc.
    - apply f_refl.
    - intros s l s1 l1 s2 l2 (A1 & B1 & C1) (A2 & B2 & C2). split; [eapply laws; eauto|].
      split; [eapply later_slice_trans; eauto|auto].
    - intros s l s' l' _ (L & _). now apply laws.
    - intros s l s' l' _ (_ & L & _). now apply slice_rewind_later.
    - intros s [al off [|x d]] V; pose proof V as (C & _); cbn in C.
      + rewrite (any_misses s C). cbn. split; auto. now apply f_refl.
      + destruct (any_takes s x d C) as (s' & -> & L & C'). cbn. split; auto. split; auto.
        split; [apply (later_drop al off [x] d)|auto].
    - intros x s [al off d] V; pose proof V as (C & _); cbn in C. cbn [p_the item_prims].
      destruct d as [|y d].
      + rewrite the_misses by (rewrite C; discriminate). cbn. split; auto. now apply f_refl.
      + rewrite the_slice. destruct (eqb y x) eqn:E.
        * apply eqb_ok in E. subst y. destruct (the_takes s x d C) as (s' & -> & L & C'). cbn. split; auto. split; auto.
          split; [apply (later_drop al off [x] d)|auto].
        * rewrite the_misses. { cbn. split; auto. now apply f_refl. }
          rewrite C. intros l F. injection F as -> _. rewrite (proj2 (eqb_ok x x) eq_refl) in E. discriminate.
    - intros p s [al off d] QP V; pose proof V as (C & a & E0); cbn in C, E0. cbn [p_atom item_prims].
      destruct (atom_slice eqb eqb_ok p al off d) as (A1 & A2).
      destruct (list_eqb eqb (firstn (length p) d) p) eqn:E.
      + apply (list_eqb_ok eqb eqb_ok) in E.
        assert (F : d = p ++ skipn (length p) d)
          by (transitivity (firstn (length p) d ++ skipn (length p) d); [symmetry; apply firstn_skipn|now rewrite E]).
        rewrite (A1 _ F). destruct (atom_takes p s (skipn (length p) d) QP ltac:(congruence)) as (s' & -> & L & C').
        cbn. split; auto. split; auto. split; [rewrite F at 1; apply later_drop|auto].
      + assert (N : forall r, d <> p ++ r).
        { intros r ->. rewrite firstn_app, Nat.sub_diag, firstn_all in E. cbn in E. rewrite app_nil_r in E.
          rewrite (proj2 (list_eqb_ok eqb eqb_ok p p) eq_refl) in E. discriminate. }
        rewrite (A2 N). destruct (atom_misses p s a QP ltac:(congruence) ltac:(congruence)) as [->|(-> & K)]; cbn; auto.
        split; auto. now apply f_refl.
  Qed.

  Notation run fuel e := (parse (parser_on P rules fuel e)).
  Notation outcome := (outcome_on later cont).

  Lemma f_outcome fuel e s : (forall i, patterns Q (rules i)) -> patterns Q e -> cont s = t0 ->
    (run fuel e s = Panic /\ crash = true) \/ run fuel e s = OutOfFuel \/
    exists o, outcome s (run fuel e s) o /\ peg rules e (cont s) o.
  Proof.
    intros QR QE C. set (l := Slice 0 0 (cont s)).
    assert (V : f_pair s l) by (split; [auto|exists []; cbn; congruence]).
    pose proof (f_same fuel e s l QR QE V) as H.
    destruct (sound eqb rules eqb_ok fuel e l) as [E|(o & O & G)].
    - rewrite E in H. destruct (run fuel e s) as [[]| | |]; cbn in H; try contradiction; auto.
    - destruct o as [t rest| |].
      + destruct O as (s' & E & L & R). rewrite E in H.
        destruct (run fuel e s) as [[x s1|]| | |]; cbn in H; try contradiction; auto.
        destruct H as (-> & L1 & _ & C1). right; right. exists (PSucc t rest). split; auto. exists s1. repeat split; auto. congruence.
      + destruct O as (s' & E & L). rewrite E in H.
        destruct (run fuel e s) as [[|x s1]| | |]; cbn in H; try contradiction; auto.
        destruct H as (-> & L1 & _ & C1). right; right. exists PFail. split; auto. exists s1. auto.
      + destruct O as (s' & E & L). rewrite E in H.
        destruct (run fuel e s) as [[|x s1]| | |]; cbn in H; try contradiction; auto.
        destruct H as (-> & L1 & _ & C1). right; right. exists PCut. split; auto. exists s1. auto.
  Qed.

  Lemma outcome_det s r o o' : outcome s r o -> outcome s r o' -> o = o'.
  Proof.
    destruct o, o'; intros (s1 & E & H) (s2 & E' & H'); rewrite E in E'; try discriminate; auto.
    injection E' as <- <-. destruct H as (_ & <-), H' as (_ & <-). reflexivity.
  Qed.

  Lemma f_exact e s o : crash = false -> (forall i, patterns Q (rules i)) -> patterns Q e -> cont s = t0 ->
    (exists fuel, outcome s (run fuel e s) o) <-> peg rules e (cont s) o.
  Proof.
    intros K QR QE C. split.
    - intros (fuel & H). destruct (f_outcome fuel e s QR QE C) as [(E & X)|[E|(o' & O & G)]].
      + congruence.
      + rewrite E in H. destruct o; destruct H as (? & H & _); discriminate.
      + now rewrite (outcome_det _ _ _ _ H O).
    - intros G. set (l := Slice 0 0 (cont s)).
      destruct (complete eqb rules eqb_ok e _ o G) as (n & H). destruct (H n (le_n n) l eq_refl) as (O & _).
      exists n. assert (V : f_pair s l) by (split; [auto|exists []; cbn; congruence]).
      pose proof (f_same n e s l QR QE V) as J.
      destruct (f_outcome n e s QR QE C) as [(E & X)|[E|(o' & O' & G')]]; [congruence| |].
      + rewrite E in J. destruct o; destruct O as (? & O & _); rewrite O in J; contradiction.
      + now rewrite (peg_det _ _ _ _ G _ G').
  Qed.
End Flat.

(** ** Text *)
Lemma text_any (s : strref) x l : chars (sr_str s) = x :: l ->
  takes (fun s => chars (sr_str s)) later_str (parse any_char s) x s l.
Proof.
  intros C. cbn. unfold any_char_parse. cbn. rewrite C. rewrite chars_len_one.
  rewrite (strref_advance_at s [x] l C). cbn. eexists. split; [reflexivity|]. split; [|reflexivity]. exists [x]. auto.
Qed.
Lemma text_the (s : strref) x l : chars (sr_str s) = x :: l ->
  takes (fun s => chars (sr_str s)) later_str (parse (the_char x) s) tt s l.
Proof.
  intros C. cbn. unfold the_char_parse. cbn. rewrite C, N.eqb_refl. rewrite chars_len_one.
  rewrite (strref_advance_at s [x] l C). cbn. eexists. split; [reflexivity|]. split; [|reflexivity]. exists [x]. auto.
Qed.
Lemma text_the_not (s : strref) x : (forall l, chars (sr_str s) <> x :: l) -> misses (parse (the_char x) s) s.
Proof.
  intros C. cbn. unfold misses, the_char_parse. cbn. destruct (chars (sr_str s)) as [|y l]; auto.
  destruct (N.eqb_spec y x) as [->|]; auto. now destruct (C l).
Qed.


Section Levels.
  Context {S A T : Type} {RW : RewindSequence S A} (P : prims S T) (rules : nat -> gexp T).
  Notation run fuel e := (parse (parser_on P rules fuel e)).

  Lemma on_join fuel a b s : run fuel (GJoin a b) s =
    ra <- run fuel a s ;;
    match ra with
    | Ok x m => rb <- run fuel b m ;; match rb with Ok y r => Ret (Ok (TPair x y) r) | Err e r => Ret (Err e r) end
    | Err e r => Ret (Err e r)
    end.
  Proof.
    transitivity (parse (MapErr (Map (Join (parser_on P rules fuel a) (parser_on P rules fuel b)) (fun '(x, y) => TPair x y)) flatten) s);
      [destruct fuel; reflexivity|].
    cbn [parse MapErr]. unfold map_err_parse. cbn [parse Map]. unfold map_parse. cbn [parse Join]. unfold join_parse.
    destruct (run fuel a s) as [[x m|[] m]| | |]; cbn [bind fail]; try reflexivity.
    destruct (run fuel b m) as [[? ?|[] ?]| | |]; reflexivity.
  Qed.
  Lemma on_or fuel a b s : run fuel (GOr a b) s =
    ra <- run fuel a s ;;
    match ra with
    | Ok x r => Ret (Ok (TFirst x) r)
    | Err EFatal r => Ret (Err EFatal r)
    | Err EMiss r =>
        s' <- rewind r (anchor s) ;; rb <- run fuel b s' ;;
        match rb with Ok y r => Ret (Ok (TLast y) r) | Err e r => Ret (Err e r) end
    end.
  Proof.
    transitivity (parse (MapErr (Map (Or (parser_on P rules fuel a) (parser_on P rules fuel b))
      (fun e => match e with First x => TFirst x | Last x => TLast x end)) flatten) s); [destruct fuel; reflexivity|].
    cbn [parse MapErr]. unfold map_err_parse. cbn [parse Map]. unfold map_parse. cbn [parse Or]. unfold or_parse.
    destruct (run fuel a s) as [[x m|[] m]| | |]; cbn [bind fail done should_terminate pe_gerr negb]; try reflexivity.
    destruct (rewind m (anchor s)) as [s'| | |]; cbn [bind]; try reflexivity.
    destruct (run fuel b s') as [[? ?|[] ?]| | |]; reflexivity.
  Qed.
  Lemma on_opt fuel a s : run fuel (GOpt a) s =
    ra <- run fuel a s ;;
    match ra with
    | Ok x r => Ret (Ok (TSome x) r)
    | Err EFatal r => Ret (Err EFatal r)
    | Err EMiss r => s' <- rewind r (anchor s) ;; Ret (Ok TNone s')
    end.
  Proof.
    transitivity (parse (Map (Optional (parser_on P rules fuel a)) (fun r => match r with ROk x => TSome x | RErr _ => (TNone : gtree T) end)) s);
      [destruct fuel; reflexivity|].
    cbn [parse Map]. unfold map_parse. cbn [parse Optional]. unfold optional_parse.
    destruct (run fuel a s) as [[x m|[] m]| | |]; cbn [bind fail done should_terminate pe_gerr negb]; try reflexivity.
    destruct (rewind m (anchor s)) as [s'| | |]; reflexivity.
  Qed.
  Lemma on_rep fuel a s : run fuel (GRep a) s =
    r <- repeat_loop fuel (parser_on P rules fuel a) [] s ;;
    match r with Ok (l, _) r => Ret (Ok (TMany l) r) | Err e r => Ret (Err e r) end.
  Proof.
    transitivity (parse (Map (Repeat fuel (parser_on P rules fuel a)) (fun '(l, _) => TMany l)) s);
      [destruct fuel; reflexivity|].
    cbn [parse Map]. unfold map_parse. cbn [parse Repeat]. unfold repeat_parse.
    destruct (repeat_loop fuel (parser_on P rules fuel a) [] s) as [[[] ?|? ?]| | |]; reflexivity.
  Qed.
  Lemma on_cut fuel a s : run fuel (GCut a) s =
    r <- run fuel a s ;; match r with Ok x r => Ret (Ok x r) | Err _ r => Ret (Err EFatal r) end.
  Proof. destruct fuel; reflexivity. Qed.
  Lemma on_ref fuel i s : run fuel (GRef i) s =
    match fuel with 0 => OutOfFuel | Datatypes.S fuel => run fuel (rules i) s end.
  Proof. destruct fuel; reflexivity. Qed.
  Lemma on_atom fuel p s : run fuel (GAtom p) s =
    r <- parse (p_atom P p) s ;; match r with Ok _ s' => Ret (Ok TUnit s') | Err _ s' => Ret (Err EMiss s') end.
  Proof.
    transitivity (parse (MapErr (Map (p_atom P p) (fun _ => TUnit : gtree T)) flatten) s); [destruct fuel; reflexivity|].
    cbn [parse MapErr]. unfold map_err_parse. cbn [parse Map]. unfold map_parse.
    now destruct (parse (p_atom P p) s) as [[|[]]| | |].
  Qed.
End Levels.

Section Stumble.
  Context (rules : nat -> gexp char).
  Notation run fuel e := (parse (parser_on text_prims rules fuel e)).
  Notation txt s := (chars (sr_str s)).
  Notation outcome := (outcome_on later_str (fun s => txt s)).

  Lemma lies_atom p (s : strref) : lies p (txt s) -> exists r, parse (atom (Str p)) s = Ret r.
  Proof.
    intros H. cbn [parse atom]. destruct (atom_strref_exact p s) as (H1 & H2).
    destruct (list_eq_dec N.eq_dec (firstn (length p) (txt s)) p) as [E|E].
    - destruct (H1 (skipn (length p) (txt s))) as (s' & -> & _); [|eauto].
      transitivity (firstn (length p) (txt s) ++ skipn (length p) (txt s)); [symmetry; apply firstn_skipn|now rewrite E].
    - assert (N : ~ prefix p (txt s)) by (intros (r & F); apply E; rewrite F; apply firstn_length_app).
      destruct (H2 N) as (H3 & H4). destruct H as [H|[(L & B)|(L & B)]]; [contradiction| |].
      + destruct (H3 L) as (K & _). rewrite (K B). eauto.
      + destruct (H4 L) as (K & _). rewrite (K B). eauto.
  Qed.
  Lemma not_lies_atom p (s : strref) : ~ lies p (txt s) -> parse (atom (Str p)) s = Panic.
  Proof.
    intros H. cbn [parse atom]. destruct (atom_strref_exact p s) as (_ & H2). unfold lies in H.
    destruct H2 as (H3 & H4); [tauto|].
    destruct (Nat.le_gt_cases (chars_len p) (chars_len (txt s))) as [L|L].
    - apply (H3 L). intros B. apply H. auto.
    - apply (H4 L). intros B. apply H. auto.
  Qed.

  Lemma text_same fuel e (s : strref) (l : slice char) : txt s = sl_data l ->
    same (f_step (fun s => txt s) later_str) true s l (run fuel e s) (parse (parser_of N.eqb rules fuel e) l).
  Proof.
    intros C.
    assert (ALL : forall e : gexp char, patterns (fun _ => True) e) by (induction e0; cbn; auto).
    apply (f_same text_prims N.eqb rules (fun s => txt s) later_str true (fun _ => True) (txt s)); auto.
    - intros x y. apply N.eqb_eq.
    - apply str_lawful.
    - apply text_any.
    - intros s0 C0. cbn. unfold misses, any_char_parse. cbn. now rewrite C0.
    - apply text_the.
    - apply text_the_not.
    - intros p s0 l0 _ C0. apply (proj1 (atom_strref_exact p s0) l0 C0).
    - intros p s0 a _ _ N. destruct (atom_strref_exact p s0) as (_ & H).
      destruct H as (H1 & H2); [intros (r & E); now apply (N r)|].
      destruct (Nat.le_gt_cases (chars_len p) (chars_len (txt s0))) as [L|L].
      + destruct (boundary_dec (txt s0) (chars_len p)) as [(ab & B)|B].
        * left. apply H1; auto. destruct ab as [x y]. apply split_chars_sound in B. exists x, y. auto.
        * right. split; auto. apply H1; auto. now apply split_chars_none.
      + destruct (boundary_dec p (chars_len (txt s0))) as [(ab & B)|B].
        * left. apply H2; auto. destruct ab as [x y]. apply split_chars_sound in B. exists x, y. auto.
        * right. split; auto. apply H2; auto. now apply split_chars_none.
    - split; auto. exists []. auto.
  Qed.

  Lemma N_ok : decides_eq N.eqb.
  Proof. intros x y. apply N.eqb_eq. Qed.

  Lemma text_outcome fuel e s : run fuel e s = Panic \/ run fuel e s = OutOfFuel \/
    exists o, outcome s (run fuel e s) o /\ peg rules e (txt s) o.
  Proof.
    set (l := Slice 0 0 (txt s)). pose proof (text_same fuel e s l eq_refl) as H.
    destruct (sound N.eqb rules N_ok fuel e l) as [E|(o & O & G)].
    - rewrite E in H. destruct (run fuel e s) as [[]| | |]; cbn in H; try contradiction; auto.
    - destruct o as [t rest| |].
      + destruct O as (s' & E & L & R). rewrite E in H.
        destruct (run fuel e s) as [[x s1|]| | |]; cbn in H; try contradiction; auto.
        destruct H as (-> & L1 & _ & C1). right; right. exists (PSucc t rest). split; auto. exists s1. repeat split; auto. exact (eq_trans C1 R).
      + destruct O as (s' & E & L). rewrite E in H.
        destruct (run fuel e s) as [[|x s1]| | |]; cbn in H; try contradiction; auto.
        destruct H as (-> & L1 & _ & C1). right; right. exists PFail. split; auto. exists s1. auto.
      + destruct O as (s' & E & L). rewrite E in H.
        destruct (run fuel e s) as [[|x s1]| | |]; cbn in H; try contradiction; auto.
        destruct H as (-> & L1 & _ & C1). right; right. exists PCut. split; auto. exists s1. auto.
  Qed.

  (** With enough fuel what the grammar says, or a panic. *)
  Lemma text_enough e l o : peg rules e l o ->
    exists n, forall fuel s, n <= fuel -> txt s = l -> run fuel e s = Panic \/ outcome s (run fuel e s) o.
  Proof.
    intros G. destruct (complete N.eqb rules N_ok e l o G) as (n & H). exists n. intros fuel s F D.
    destruct (H fuel F (Slice 0 0 l) eq_refl) as (O & _).
    pose proof (text_same fuel e s (Slice 0 0 l) D) as J.
    destruct (text_outcome fuel e s) as [E|[E|(o' & O' & G')]]; auto.
    - rewrite E in J. destruct o; destruct O as (? & O & _); rewrite O in J; contradiction.
    - right. rewrite D in G'. now rewrite (peg_det rules _ _ _ G _ G').
  Qed.

  Lemma loop_panics (p : dparser strref (gtree char) gerr) a :
    (forall s, parse p s = Panic -> stumbles rules a (txt s)) ->
    (forall s, parse p s = Panic \/ parse p s = OutOfFuel \/ exists o, outcome s (parse p s) o /\ peg rules a (txt s) o) ->
    forall k buf s, repeat_loop k p buf s = Panic -> stumbles rules (GRep a) (txt s).
  Proof.
    intros HP HO. induction k as [|k IH]; intros buf s; cbn [repeat_loop]; [discriminate|].
    destruct (HO s) as [E|[E|(o & O & G)]].
    - intros _. apply st_rep1. auto.
    - rewrite E. discriminate.
    - destruct o as [t rest| |].
      + destruct O as (s' & -> & L & C). cbn [bind]. intros K. apply IH in K. cbv beta in C. rewrite C in K. eapply st_rep2; eauto.
      + destruct O as (s' & -> & L). cbn [bind should_terminate pe_gerr]. rewrite (rewind_anchor str_lawful _ _ L). discriminate.
      + destruct O as (s' & -> & L). cbn [bind should_terminate pe_gerr]. discriminate.
  Qed.

  Lemma panic_stumbles fuel : forall e s, run fuel e s = Panic -> stumbles rules e (txt s).
  Proof.
    induction fuel as [fuel IHf] using lt_wf_ind.
    induction e as [|x|p|a IHa b IHb|a IHa b IHb|a IHa|a IHa|a IHa|i]; intros s H.
    - exfalso. destruct (chars (sr_str s)) as [|c t] eqn:C.
      + assert (K : misses (parse any_char s) s) by (unfold misses; cbn; unfold any_char_parse; cbn; now rewrite C).
        assert (J : run fuel GAny s = Ret (Err EMiss s)); [|congruence].
        transitivity (parse (MapErr (Map any_char TItem) flatten) s); [destruct fuel; reflexivity|].
        cbn [parse MapErr]. unfold map_err_parse. cbn [parse Map]. unfold map_parse. rewrite K. reflexivity.
      + destruct (text_any s c t C) as (s' & K & _).
        assert (J : run fuel GAny s = Ret (Ok (TItem c) s')); [|congruence].
        transitivity (parse (MapErr (Map any_char TItem) flatten) s); [destruct fuel; reflexivity|].
        cbn [parse MapErr]. unfold map_err_parse. cbn [parse Map]. unfold map_parse. rewrite K. reflexivity.
    - exfalso. assert (K : exists r, parse (the_char x) s = Ret r).
      { destruct (chars (sr_str s)) as [|c t] eqn:C.
        - rewrite (text_the_not s x) by (rewrite C; discriminate). eauto.
        - destruct (N.eq_dec c x) as [->|N].
          + destruct (text_the s x t C) as (s' & -> & _). eauto.
          + rewrite (text_the_not s x) by (rewrite C; congruence). eauto. }
      destruct K as (r & K).
      assert (J : exists r', run fuel (GThe x) s = Ret r'); [|destruct J; congruence].
      exists (match r with Ok _ s' => Ok TUnit s' | Err e s' => Err (flatten e) s' end).
      transitivity (parse (MapErr (Map (the_char x) (fun _ => TUnit : gtree char)) flatten) s); [destruct fuel; reflexivity|].
      cbn [parse MapErr]. unfold map_err_parse. cbn [parse Map]. unfold map_parse. rewrite K. now destruct r.
    - apply st_atom. intros B. destruct (lies_atom p s B) as (r & K). rewrite on_atom in H. cbn [p_atom text_prims] in H.
      rewrite K in H. destruct r; discriminate.
    - rewrite on_join in H. destruct (text_outcome fuel a s) as [E|[E|(o & O & G)]].
      + apply st_join1. auto.
      + rewrite E in H. discriminate.
      + destruct o as [t rest| |].
        * destruct O as (s' & E & L & C). rewrite E in H. cbn [bind] in H. eapply st_join2; [exact G|].
          cbv beta in C. rewrite <- C. apply IHb. destruct (run fuel b s') as [[]| | |]; auto; discriminate.
        * destruct O as (s' & E & L). rewrite E in H. discriminate.
        * destruct O as (s' & E & L). rewrite E in H. discriminate.
    - rewrite on_or in H. destruct (text_outcome fuel a s) as [E|[E|(o & O & G)]].
      + apply st_or1. auto.
      + rewrite E in H. discriminate.
      + destruct o as [t rest| |].
        * destruct O as (s' & E & L & C). rewrite E in H. discriminate.
        * destruct O as (s' & E & L). rewrite E in H. cbn [bind] in H. rewrite (rewind_anchor str_lawful _ _ L) in H. cbn [bind] in H.
          eapply st_or2; [exact G|]. apply IHb. destruct (run fuel b s) as [[]| | |]; auto; discriminate.
        * destruct O as (s' & E & L). rewrite E in H. discriminate.
    - rewrite on_opt in H. destruct (text_outcome fuel a s) as [E|[E|(o & O & G)]].
      + apply st_opt. auto.
      + rewrite E in H. discriminate.
      + destruct o as [t rest| |].
        * destruct O as (s' & E & L & C). rewrite E in H. discriminate.
        * destruct O as (s' & E & L). rewrite E in H. cbn [bind] in H. rewrite (rewind_anchor str_lawful _ _ L) in H. discriminate.
        * destruct O as (s' & E & L). rewrite E in H. discriminate.
    - rewrite on_rep in H. eapply loop_panics with (k := fuel) (buf := []) (p := parser_on text_prims rules fuel a); eauto.
      + intros s0. apply text_outcome.
      + destruct (repeat_loop _ _ _ _) as [[[]|]| | |]; auto; discriminate.
    - rewrite on_cut in H. apply st_cut, IHa. destruct (run fuel a s) as [[]| | |]; auto; discriminate.
    - rewrite on_ref in H. destruct fuel as [|fuel]; [discriminate|]. apply st_ref. eapply IHf; eauto.
  Qed.

  (** Panics with any large enough fuel. *)
  Definition sinks (e : gexp char) (l : list char) : Prop :=
    exists n, forall fuel s, n <= fuel -> txt s = l -> run fuel e s = Panic.

  Lemma stumbles_panic e l : stumbles rules e l ->
    sinks e l /\ match e with
                 | GRep a => exists n, forall fuel k buf s, n <= fuel -> n <= k -> txt s = l ->
                     repeat_loop k (parser_on text_prims rules fuel a) buf s = Panic
                 | _ => True
                 end.
  Proof.
    assert (REP : forall a l, (exists n, forall fuel k buf s, n <= fuel -> n <= k -> txt s = l ->
      repeat_loop k (parser_on text_prims rules fuel a) buf s = Panic) -> sinks (GRep a) l).
    { intros a l0 (n & H). exists n. intros fuel s F D. rewrite on_rep. now rewrite H. }
    induction 1 as [p l H|a b l _ [(n & IH) _]|a b l t m G _ [(n & IH) _]|a b l _ [(n & IH) _]|a b l G _ [(n & IH) _]|a l _ [(n & IH) _]
                   |a l _ [(n & IH) _]|a l t m G _ [_ (n & IH)]|a l _ [(n & IH) _]|i l _ [(n & IH) _]].
    - split; auto. exists 0. intros fuel s _ <-. rewrite on_atom. cbn [p_atom text_prims]. now rewrite not_lies_atom.
    - split; auto. exists n. intros fuel s F D. rewrite on_join. now rewrite IH.
    - split; auto. destruct (text_enough _ _ _ G) as (k & E). exists (n + k). intros fuel s F D. rewrite on_join.
      destruct (E fuel s ltac:(lia) D) as [->|(s' & -> & _ & C)]; auto. cbn [bind]. rewrite IH; auto. lia.
    - split; auto. exists n. intros fuel s F D. rewrite on_or. now rewrite IH.
    - split; auto. destruct (text_enough _ _ _ G) as (k & E). exists (n + k). intros fuel s F D. rewrite on_or.
      destruct (E fuel s ltac:(lia) D) as [->|(s' & -> & L)]; auto. cbn [bind]. rewrite (rewind_anchor str_lawful _ _ L). cbn [bind].
      rewrite IH; auto. lia.
    - split; auto. exists n. intros fuel s F D. rewrite on_opt. now rewrite IH.
    - assert (K : exists n, forall fuel k buf s, n <= fuel -> n <= k -> txt s = l ->
        repeat_loop k (parser_on text_prims rules fuel a) buf s = Panic); [|split; auto].
      exists (Datatypes.S n). intros fuel [|k] buf s F K D; [lia|]. cbn [repeat_loop]. rewrite IH; auto. lia.
    - assert (K : exists n, forall fuel k buf s, n <= fuel -> n <= k -> txt s = l ->
        repeat_loop k (parser_on text_prims rules fuel a) buf s = Panic); [|split; auto].
      destruct (text_enough _ _ _ G) as (j & E).
      exists (Datatypes.S (n + j)). intros fuel [|k] buf s F K D; [lia|]. cbn [repeat_loop].
      destruct (E fuel s ltac:(lia) D) as [->|(s' & -> & _ & C)]; auto. cbn [bind]. apply IH; auto; lia.
    - split; auto. exists n. intros fuel s F D. rewrite on_cut. now rewrite IH.
    - split; auto. exists (Datatypes.S n). intros [|fuel] s F D; [lia|]. rewrite on_ref. apply IH; auto. lia.
  Qed.
End Stumble.
