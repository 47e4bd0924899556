(** * P_Any: property C98. *)
From Verif Require Import S_Any L_Any.

(** Parsers that agree over two sequences agree still when combined, whatever
    the combinators, their closures and the parsers one starts from. *)
Theorem C98_every_combinator {S1 A1 S2 A2} {R1 : RewindSequence S1 A1} {R2 : RewindSequence S2 A2}
    (pair : S1 -> S2 -> Prop) (step : S1 -> S2 -> S1 -> S2 -> Prop) (leaf : Type -> Type -> Type)
    (prim1 : forall O E, leaf O E -> dparser S1 O E) (prim2 : forall O E, leaf O E -> dparser S2 O E) :
  corresponds pair step -> (forall O E (l : leaf O E), agreeing pair step (prim1 O E l) (prim2 O E l)) ->
  forall O E (x : pexp leaf O E), agreeing pair step (build leaf prim1 x) (build leaf prim2 x).
Proof.
  intros CC HL O E x s1 s2 V. destruct (expressions_agree pair step CC leaf prim1 prim2 HL O E x) as (A & B). auto.
Qed.

Section Measured.
  Context {T M : Type} {MM : Meter M (list T)} (eqb : T -> T -> bool).
  Let B {S} {SQ : Sequence S (list T)} := items_of (S := S) (item_prims eqb).

  (** Measuring a slice changes no result, borrowed or consumed, and the meter
      goes over consecutive pieces of exactly what was read. *)
  Theorem C98_measured_items {O E} (x : pexp (item_leaf T) O E) (m : M) s
      (run : forall S, dparser S O E -> S -> comp (res S O E)) :
    (run = fun S p => parse p) \/ (run = fun S p => parse_once p) ->
    map_rest (fun y => me_base y) (run _ (build _ B x) (Measured m s)) = run _ (build _ B x) s /\
    forall r, run _ (build _ B x) (Measured m s) = Ret r -> exists pieces,
      concat pieces = read (sl_data s) (sl_data (me_base (location r))) /\
      me_meter (location r) = fold_left meter_advance pieces m.
  Proof.
    intros R.
    destruct (C98_every_combinator m_pair m_step (item_leaf T) B B m_corresponds (m_leaves eqb) O E x (Measured m s) s eq_refl) as (H1 & H2).
    assert (H : agree m_step (Measured m s) s (run _ (build _ B x) (Measured m s)) (run _ (build _ B x) s))
      by (destruct R as [->| ->]; assumption).
    destruct (run _ (build _ B x) (Measured m s)) as [[y r1|y r1]| | |], (run _ (build _ B x) s) as [[z r2|z r2]| | |];
      cbn in H; try contradiction; try discriminate H;
      (split; [|intros r F; try discriminate F; injection F as <-]); try reflexivity;
      destruct H as (-> & ds & D & S0 & ->); cbn; try reflexivity;
      exists ds; rewrite D, read_app; auto.
  Qed.
End Measured.

(** The same of text. *)
Theorem C98_measured_text {M} {MM : Meter M str} {O E} (x : pexp (item_leaf char) O E) (m : M) s
    (run : forall S, dparser S O E -> S -> comp (res S O E)) :
  (run = fun S p => parse p) \/ (run = fun S p => parse_once p) ->
  let meas := run _ (build _ (items_of text_prims) x) (Measured m s) in
  let plain := run _ (build _ (items_of text_prims) x) s in
  map_rest (fun y => me_base y) meas = plain /\
  forall r, meas = Ret r -> exists pieces,
    concat pieces = read (chars (sr_str s)) (chars (sr_str (me_base (location r)))) /\
    me_meter (location r) = fold_left (fun m p => meter_advance m (Str p)) pieces m.
Proof.
  intros R meas plain.
  destruct (C98_every_combinator mt_pair mt_step (item_leaf char) _ _ mt_corresponds mt_leaves O E x (Measured m s) s eq_refl) as (H1 & H2).
  assert (H : agree mt_step (Measured m s) s meas plain) by (unfold meas, plain; destruct R as [->| ->]; assumption).
  destruct meas as [[y r1|y r1]| | |], plain as [[z r2|z r2]| | |];
    cbn in H; try contradiction; try discriminate H;
    (split; [|intros r F; try discriminate F; injection F as <-]); try reflexivity;
    destruct H as (-> & ds & D & S0 & ->); cbn; try reflexivity;
    exists ds; rewrite D, read_app; auto.
Qed.

(** No parser can tell where in memory the items lie, although rewinding
    compares addresses. *)
Theorem C98_moved_items {T} (eqb : T -> T -> bool) {O E} (x : pexp (item_leaf T) O E) al off al' off' d
    (run : dparser (slice T) O E -> slice T -> comp (res (slice T) O E)) :
  (run = fun p => parse p) \/ (run = fun p => parse_once p) ->
  run (build _ (items_of (item_prims eqb)) x) (Slice al' off' d) =
  map_rest (fun s => Slice al' (off' + (sl_off s - off)) (sl_data s))
    (run (build _ (items_of (item_prims eqb)) x) (Slice al off d)).
Proof.
  intros R.
  destruct (C98_every_combinator w_pair w_step (item_leaf T) _ _ w_corresponds (w_leaves eqb) O E x (Slice al off d) (Slice al' off' d) eq_refl) as (H1 & H2).
  assert (H : agree w_step (Slice al off d) (Slice al' off' d) (run (build _ (items_of (item_prims eqb)) x) (Slice al off d))
    (run (build _ (items_of (item_prims eqb)) x) (Slice al' off' d))) by (destruct R as [->| ->]; assumption).
  destruct (run (build _ (items_of (item_prims eqb)) x) (Slice al off d)) as [[y r1|y r1]| | |],
           (run (build _ (items_of (item_prims eqb)) x) (Slice al' off' d)) as [[z r2|z r2]| | |];
    cbn in H |- *; try contradiction; auto; destruct H as (-> & e & D & E1 & ->); cbn;
    (replace (sl_off r1) with (off + length e) by (rewrite E1; reflexivity)); do 3 f_equal; lia.
Qed.

Theorem C98_moved_text {O E} (x : pexp (item_leaf char) O E) al off al' off' t
    (run : dparser strref O E -> strref -> comp (res strref O E)) :
  (run = fun p => parse p) \/ (run = fun p => parse_once p) ->
  run (build _ (items_of text_prims) x) (StrRef al' off' t) =
  map_rest (fun s => StrRef al' (off' + (sr_off s - off)) (sr_str s))
    (run (build _ (items_of text_prims) x) (StrRef al off t)).
Proof.
  intros R.
  destruct (C98_every_combinator wt_pair wt_step (item_leaf char) _ _ wt_corresponds wt_leaves O E x (StrRef al off t) (StrRef al' off' t) eq_refl) as (H1 & H2).
  assert (H : agree wt_step (StrRef al off t) (StrRef al' off' t) (run (build _ (items_of text_prims) x) (StrRef al off t))
    (run (build _ (items_of text_prims) x) (StrRef al' off' t))) by (destruct R as [->| ->]; assumption).
  destruct (run (build _ (items_of text_prims) x) (StrRef al off t)) as [[y r1|y r1]| | |],
           (run (build _ (items_of text_prims) x) (StrRef al' off' t)) as [[z r2|z r2]| | |];
    cbn in H |- *; try contradiction; auto; destruct H as (-> & e & D & E1 & ->); cbn;
    (replace (sr_off r1) with (off + chars_len e) by (rewrite E1; reflexivity)); do 3 f_equal; lia.
Qed.

(** Nor where the segments end, nor which sequence the items come from. *)
Theorem C98_segmented {S1 A1 S2 A2 T} {R1 : RewindSequence S1 A1} {R2 : RewindSequence S2 A2}
    {Q1 : Sequence S1 (list T)} {Q2 : Sequence S2 (list T)} (eqb : T -> T -> bool)
    (later1 : S1 -> S1 -> Prop) (later2 : S2 -> S2 -> Prop) :
  lawful_rewind later1 -> lawful_rewind later2 ->
  lawful_items (S := S1) (T := T) -> lawful_items (S := S2) (T := T) ->
  (forall s s' n, n <= length (content s) -> advance s n = Ret s' -> later1 s s') ->
  (forall s s' n, n <= length (content s) -> advance s n = Ret s' -> later2 s s') ->
  forall O E (x : pexp (single_leaf T) O E),
  agreeing (fun s1 s2 => content s1 = content s2)
    (fun s1 s2 r1 r2 => later1 s1 r1 /\ later2 s2 r2 /\ content r1 = content r2)
    (build _ (singles_of (item_prims eqb)) x) (build _ (singles_of (item_prims eqb)) x).
Proof.
  intros W1 W2 I1 I2 L1 L2. apply C98_every_combinator.
  - constructor.
    + intros s1 s2 r1 r2 _ (_ & _ & V). exact V.
    + intros s1 s2 V. split; [apply W1|]. split; [apply W2|exact V].
    + intros s1 s2 r1 r2 q1 q2 (X1 & Y1 & _) (X2 & Y2 & V). split; [eapply W1; eauto|]. split; [eapply W2; eauto|exact V].
    + intros s1 s2 r1 r2 _ (X & _). now apply W1.
    + intros s1 s2 r1 r2 _ (_ & X & _). now apply W2.
  - assert (ONE : forall s1 s2 x l, content s1 = x :: l -> content s2 = x :: l -> forall O E (o : O),
      agree (E := E) (fun s1 s2 r1 r2 => later1 s1 r1 /\ later2 s2 r2 /\ content r1 = content r2) s1 s2
        (r <- advance s1 1 ;; done o r) (r <- advance s2 1 ;; done o r)).
    { intros s1 s2 x l C1 C2 O E o. destruct (I1 s1 [x] l C1) as (r1 & E1 & D1). destruct (I2 s2 [x] l C2) as (r2 & E2 & D2).
      cbn in E1, E2. rewrite E1, E2. cbn. split; auto. split; [|split; [|now rewrite D1, D2]].
      - apply L1 with 1; auto. rewrite C1. cbn. lia.
      - apply L2 with 1; auto. rewrite C2. cbn. lia. }
    assert (HEAD : forall (X : Type) (f : T -> X) (z : X) (loop : list (list T) -> X),
      (loop [] = z) -> (forall gs, loop ([] :: gs) = loop gs) -> (forall y g gs, loop ((y :: g) :: gs) = f y) ->
      forall gs, loop gs = match concat gs with [] => z | y :: _ => f y end).
    { intros X f z loop H0 H1 H2. induction gs as [|[|y g] gs IH]; cbn; auto. now rewrite H1. }
    intros O E l s1 s2 V.
    assert (K : agree (fun s1 s2 r1 r2 => later1 s1 r1 /\ later2 s2 r2 /\ content r1 = content r2) s1 s2
      (parse (singles_of (item_prims eqb) O E l) s1) (parse (singles_of (item_prims eqb) O E l) s2)).
    { assert (Z : later1 s1 s1 /\ later2 s2 s2 /\ content s1 = content s2) by (split; [apply W1|split; [apply W2|exact V]]).
      destruct l; cbn.
      - unfold any_item_parse.
        rewrite (HEAD _ (fun y => r <- advance s1 1 ;; done y r) (fail (MkMiss tt) s1) (fun gs => any_item_loop gs s1) eq_refl (fun _ => eq_refl) (fun _ _ _ => eq_refl) (segments s1)).
        rewrite (HEAD _ (fun y => r <- advance s2 1 ;; done y r) (fail (MkMiss tt) s2) (fun gs => any_item_loop gs s2) eq_refl (fun _ => eq_refl) (fun _ _ _ => eq_refl) (segments s2)).
        unfold content in V. rewrite <- V. destruct (concat (segments s1)) eqn:D; [cbn; auto|].
        apply ONE with t l; unfold content; congruence.
      - unfold the_item_parse.
        rewrite (HEAD _ (fun y => if eqb y t then r <- advance s1 1 ;; done tt r else fail (MkMiss tt) s1) (fail (MkMiss tt) s1) (fun gs => the_item_loop eqb t gs s1) eq_refl (fun _ => eq_refl) (fun _ _ _ => eq_refl) (segments s1)).
        rewrite (HEAD _ (fun y => if eqb y t then r <- advance s2 1 ;; done tt r else fail (MkMiss tt) s2) (fail (MkMiss tt) s2) (fun gs => the_item_loop eqb t gs s2) eq_refl (fun _ => eq_refl) (fun _ _ _ => eq_refl) (segments s2)).
        unfold content in V. rewrite <- V. destruct (concat (segments s1)) eqn:D; [cbn; auto|].
        destruct (eqb t0 t); [|cbn; auto]. apply ONE with t0 l; unfold content; congruence. }
    split; [exact K|]. destruct l; exact K.
Qed.

(** ** Cases *)

(** Sums: a digit, then operator and digit pairs, by [bin_expr], over text with
    a two-byte character behind it. *)
#[local] Instance miss_error {X} : ParseError (Miss X) := fun _ => false.
#[local] Instance plus_minus : Operator bool := {
  precedence := fun _ => 1;
  associativity := fun _ => Left
}.
Definition digit : pexp (item_leaf char) nat unit :=
  XAndThen (fun _ => tt) (XLeaf LAny)
    (fun c => if ((48 <=? c) && (c <=? 57))%N then ROk (N.to_nat (c - 48)) else RErr tt).
Definition sign : pexp (item_leaf char) bool unit :=
  XMapErr (XMap (XOr miss_error miss_error (XLeaf (LThe 43%N)) (XLeaf (LThe 45%N)))
    (fun e => match e with First _ => true | Last _ => false end)) (fun _ => tt).
#[local] Instance unit_error : ParseError unit := fun _ => false.
Definition total : pexp (item_leaf char) (Z * Either unit unit) (Either unit unit) :=
  XBinExpr unit_error unit_error plus_minus Z.of_nat
    (fun a op b => if op : bool then (a + b)%Z else (a - b)%Z) 100 true 9 digit sign.
Definition sum_text : strref := StrRef 3 5 (Str [55%N; 45%N; 57%N; 43%N; 49%N; 233%N]).
#[local] Instance bytes_read : Meter nat str := fun m s => m + str_len s.

Example C98_case_plain : parse (build _ (items_of text_prims) total) sum_text =
  Ret (Ok ((-1)%Z, First tt) (StrRef 3 10 (Str [233%N]))).
Proof. vm_compute. reflexivity. Qed.
Example C98_case_measured : parse (build _ (items_of text_prims) total) (Measured 40 sum_text) =
  Ret (Ok ((-1)%Z, First tt) (Measured 45 (StrRef 3 10 (Str [233%N])))).
Proof. vm_compute. reflexivity. Qed.
Example C98_case_moved : parse (build _ (items_of text_prims) total) (StrRef 8 100 (sr_str sum_text)) =
  Ret (Ok ((-1)%Z, First tt) (StrRef 8 105 (Str [233%N]))).
Proof.
  rewrite (C98_moved_text total 3 5 8 100 (sr_str sum_text) (fun p => parse p)) by auto.
  change (StrRef 3 5 (sr_str sum_text)) with sum_text. rewrite C98_case_plain. reflexivity.
Qed.
(** Digits taken three at a time. *)
Example C98_case_iter :
  parse (build _ (items_of text_prims)
    (XFold 9 (YTake (YMapEach (YRepeat unit_error digit) (fun n => n + 1)) 3) 0 Nat.add)) (Measured 0 (StrRef 3 5 (Str [49%N; 50%N; 51%N; 52%N])))
  = Ret (Ok 9 (Measured 3 (StrRef 3 8 (Str [52%N])))).
Proof. vm_compute. reflexivity. Qed.

(** A sum by [fold] over any two segmentations of the same numbers. *)
Definition sum_below : pexp (single_leaf nat) nat unit :=
  XFold 50 (YTryMapEach unit_error (fun _ => tt) (YRepeat miss_error (XLeaf KAny))
    (fun n => if n <=? 9 then ROk n else RErr tt)) 0 Nat.add.
Example C98_case_segmented (s1 s2 : chunked nat) : content s1 = content s2 ->
  agree (fun _ _ r1 r2 => content r1 = content r2) s1 s2
    (parse (build _ (singles_of (item_prims Nat.eqb)) sum_below) s1) (parse (build _ (singles_of (item_prims Nat.eqb)) sum_below) s2).
Proof.
  intros V.
  assert (W : lawful_rewind (fun _ _ : chunked nat => True)) by (constructor; auto).
  destruct (C98_segmented (T := nat) Nat.eqb (fun _ _ : chunked nat => True) (fun _ _ : chunked nat => True)
    W W chunked_lawful chunked_lawful (fun _ _ _ _ _ => Logic.I) (fun _ _ _ _ _ => Logic.I) _ _ sum_below s1 s2 V) as (H & _).
  destruct (parse _ s1) as [[]| | |], (parse _ s2) as [[]| | |]; cbn in *; tauto.
Qed.
Example C98_case_segmented_runs :
  parse (build _ (singles_of (item_prims Nat.eqb)) sum_below) (Chunked [[]; [1; 2]; []; [3]]) = Ret (Ok 6 (Chunked [[]])) /\
  parse (build _ (singles_of (item_prims Nat.eqb)) sum_below) (Chunked [[1; 2; 3]]) = Ret (Ok 6 (Chunked [[]])).
Proof. split; vm_compute; reflexivity. Qed.

Print Assumptions C98_every_combinator.
Print Assumptions C98_measured_items.
Print Assumptions C98_measured_text.
Print Assumptions C98_moved_items.
Print Assumptions C98_moved_text.
Print Assumptions C98_segmented.
