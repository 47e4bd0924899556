(** * P_PegOn: property C97. *)
From Verif Require Import S_PegOn L_PegOn.

(** ** Measured sequences *)

(** Any meter: the result is the one without it, and the meter went over
    consecutive pieces of exactly what was read. *)
Theorem C97_items_pieces {T M} {MM : Meter M (list T)} (eqb : T -> T -> bool) rules fuel e (m : M) s :
  let plain := parse (parser_of eqb rules fuel e) s in
  let meas := parse (parser_on (item_prims eqb) rules fuel e) (Measured m s) in
  map_rest (fun x => me_base x) meas = plain /\
  forall r, meas = Ret r -> exists pieces,
    concat pieces = read (sl_data s) (sl_data (me_base (location r))) /\
    me_meter (location r) = fold_left meter_advance pieces m.
Proof.
  intros plain meas. pose proof (m_same eqb rules fuel e (Measured m s) s eq_refl) as H.
  fold meas in H. rewrite parser_on_slice in H. fold plain in H.
  destruct meas as [[x r1|x r1]| | |], plain as [[y r2|y r2]| | |]; cbn in H; try contradiction; try discriminate H;
    (split; [|intros r E; try discriminate E; injection E as <-]); try reflexivity;
    destruct H as (-> & ds & D & S0 & ->); cbn; try reflexivity;
    exists ds; rewrite D, read_app; auto.
Qed.

Theorem C97_text_pieces {M} {MM : Meter M str} rules fuel e (m : M) s :
  let plain := parse (parser_on text_prims rules fuel e) s in
  let meas := parse (parser_on text_prims rules fuel e) (Measured m s) in
  map_rest (fun x => me_base x) meas = plain /\
  forall r, meas = Ret r -> exists pieces,
    concat pieces = read (chars (sr_str s)) (chars (sr_str (me_base (location r)))) /\
    me_meter (location r) = fold_left (fun m p => meter_advance m (Str p)) pieces m.
Proof.
  intros plain meas. pose proof (mt_same rules fuel e (Measured m s) s eq_refl) as H.
  fold meas plain in H.
  destruct meas as [[x r1|x r1]| | |], plain as [[y r2|y r2]| | |]; cbn in H; try contradiction; try discriminate H;
    (split; [|intros r E; try discriminate E; injection E as <-]); try reflexivity;
    destruct H as (-> & ds & D & S0 & ->); cbn; try reflexivity;
    exists ds; rewrite D, read_app; auto.
Qed.

(** A meter that does not mind where the pieces end: the whole result, the
    location being that of exactly what was read. *)
Theorem C97_items_measured {T M} {MM : Meter M (list T)} (eqb : T -> T -> bool) rules fuel e (m : M) s :
  compositional (meter_advance (M := M) (X := list T)) ->
  parse (parser_on (item_prims eqb) rules fuel e) (Measured m s) =
  map_rest (fun s' => Measured (meter_advance m (read (sl_data s) (sl_data s'))) s')
    (parse (parser_of eqb rules fuel e) s).
Proof.
  intros C. destruct (C97_items_pieces eqb rules fuel e m s) as (<- & H). cbv zeta in H.
  destruct (parse _ _) as [[x [m' b]|x [m' b]]| | |]; cbn in *; auto;
    destruct (H _ eq_refl) as (ds & D & K); cbn in D, K; rewrite K, <- D, <- (meter_pieces _ C); reflexivity.
Qed.

Theorem C97_text_measured {M} {MM : Meter M str} rules fuel e (m : M) s :
  compositional (fun (m : M) p => meter_advance m (Str p)) ->
  parse (parser_on text_prims rules fuel e) (Measured m s) =
  map_rest (fun s' => Measured (meter_advance m (Str (read (chars (sr_str s)) (chars (sr_str s'))))) s')
    (parse (parser_on text_prims rules fuel e) s).
Proof.
  intros C. destruct (C97_text_pieces rules fuel e m s) as (<- & H). cbv zeta in H.
  destruct (parse _ _) as [[x [m' b]|x [m' b]]| | |]; cbn in *; auto;
    destruct (H _ eq_refl) as (ds & D & K); cbn in D, K; rewrite K, <- D, <- (meter_pieces _ C); reflexivity.
Qed.

(** ** Text *)

Section Text.
  Context (rules : nat -> gexp char).
  Notation run fuel e := (parse (parser_on text_prims rules fuel e)).
  Notation outcome := (outcome_on later_str (fun s => chars (sr_str s))).

  (** A [&str]: out of fuel, what the grammar says, or a panic. *)
  Theorem C97_text fuel e s : run fuel e s = Panic \/ run fuel e s = OutOfFuel \/
    exists o, outcome s (run fuel e s) o /\ peg rules e (chars (sr_str s)) o.
  Proof. apply text_outcome. Qed.

  (** It panics exactly if the grammar comes to a pattern that cannot be laid
      against the text there. *)
  Theorem C97_text_panics e s : (exists fuel, run fuel e s = Panic) <-> stumbles rules e (chars (sr_str s)).
  Proof.
    split.
    - intros (fuel & H). exact (panic_stumbles rules fuel e s H).
    - intros H. destruct (stumbles_panic rules e _ H) as ((n & K) & _). exists n. now apply K.
  Qed.

  (** If every pattern of the grammar can be laid against every end of the text,
      the parser has an outcome exactly if the grammar gives it; and it never
      panics. *)
  Theorem C97_text_exact e s o :
    patterns (lies_anywhere (chars (sr_str s))) e -> (forall i, patterns (lies_anywhere (chars (sr_str s))) (rules i)) ->
    (forall fuel, run fuel e s <> Panic) /\
    ((exists fuel, outcome s (run fuel e s) o) <-> peg rules e (chars (sr_str s)) o).
  Proof.
    intros QE QR.
    assert (AT : forall p s0 a, lies_anywhere (chars (sr_str s)) p -> chars (sr_str s) = a ++ chars (sr_str s0) ->
      (forall l, chars (sr_str s0) <> p ++ l) -> misses (parse (atom (Str p)) s0) s0 \/ parse (atom (Str p)) s0 = Panic /\ false = true).
    { intros p s0 a K E N. left. destruct (atom_strref_exact p s0) as (_ & H).
      destruct H as (H1 & H2); [intros (r & F); now apply (N r)|].
      destruct (K _ _ E) as [(r & F)|[(L & B)|(L & B)]]; [now destruct (N r)|now apply H1|now apply H2]. }
    assert (HN : decides_eq N.eqb) by (intros x y; apply N.eqb_eq).
    assert (HA : forall s0, chars (sr_str s0) = [] -> misses (parse any_char s0) s0).
    { intros s0 C. cbn. unfold misses, any_char_parse. cbn. now rewrite C. }
    assert (HT : forall p s0 l, lies_anywhere (chars (sr_str s)) p -> chars (sr_str s0) = p ++ l ->
      takes (fun s => chars (sr_str s)) later_str (parse (atom (Str p)) s0) tt s0 l).
    { intros p s0 l _ C. apply (proj1 (atom_strref_exact p s0) l C). }
    split.
    - intros fuel F.
      destruct (f_outcome text_prims N.eqb rules (fun s => chars (sr_str s)) later_str false
        (lies_anywhere (chars (sr_str s))) (chars (sr_str s)) HN str_lawful text_any HA text_the text_the_not HT AT fuel e s QR QE eq_refl)
        as [(_ & E)|[E|(o' & O & _)]]; [discriminate|congruence|].
      rewrite F in O. destruct o'; destruct O as (? & O & _); discriminate.
    - apply (f_exact text_prims N.eqb rules (fun s => chars (sr_str s)) later_str false
        (lies_anywhere (chars (sr_str s))) (chars (sr_str s)) HN str_lawful text_any HA text_the text_the_not HT AT e s o eq_refl QR QE eq_refl).
  Qed.

  (** One-byte characters in the text and the patterns are enough. *)
  Theorem C97_text_ascii e s o :
    Forall (fun c => (c < 128)%N) (chars (sr_str s)) ->
    patterns (Forall (fun c => (c < 128)%N)) e -> (forall i, patterns (Forall (fun c => (c < 128)%N)) (rules i)) ->
    (forall fuel, run fuel e s <> Panic) /\
    ((exists fuel, outcome s (run fuel e s) o) <-> peg rules e (chars (sr_str s)) o).
  Proof.
    intros A QE QR.
    assert (W : forall e : gexp char, patterns (Forall (fun c => (c < 128)%N)) e -> patterns (lies_anywhere (chars (sr_str s))) e).
    { clear e QE. induction e; cbn; try tauto. intros F a b E. rewrite E in A. apply Forall_app in A. destruct A as (_ & A).
      right. rewrite !ascii_chars_len by auto.
      destruct (Nat.le_gt_cases (length p) (length b)); [left|right]; split; auto;
        apply ascii_boundary; auto. now apply Nat.lt_le_incl. }
    apply C97_text_exact; auto.
  Qed.

  (** Consuming the parser is the same. *)
  Theorem C97_text_once fuel e s : parse_once (parser_on text_prims rules fuel e) s = run fuel e s.
  Proof. apply parser_on_once; reflexivity. Qed.
End Text.

(** ** Sequences cut into segments, grammars without patterns *)

(** What advancing must do in addition to [lawful_items]: stay in the order the
    sequence can be rewound in. *)
Theorem C97_segmented {S A T} {RW : RewindSequence S A} {SQ : Sequence S (list T)} (eqb : T -> T -> bool)
    (later : S -> S -> Prop) rules e s o :
  decides_eq eqb -> lawful_rewind later -> lawful_items (S := S) (T := T) ->
  (forall s s' n, n <= length (content s) -> advance s n = Ret s' -> later s s') ->
  patterns (fun _ => False) e -> (forall i, patterns (fun _ => False) (rules i)) ->
  (forall fuel, parse (parser_on (item_prims eqb) rules fuel e) s <> Panic) /\
  ((exists fuel, outcome_on later content s (parse (parser_on (item_prims eqb) rules fuel e) s) o) <->
   peg rules e (content s) o).
Proof.
  intros HE HR HI HL QE QR.
  assert (ONE : forall s0 x l, content s0 = x :: l -> exists s', advance s0 1 = Ret s' /\ later s0 s' /\ content s' = l).
  { intros s0 x l C. destruct (HI s0 [x] l C) as (s' & E & C'). exists s'. split; [exact E|]. split; [|exact C'].
    apply HL with 1; auto. rewrite C. cbn. lia. }
  assert (H1 : forall s0 x l, content s0 = x :: l -> takes content later (parse any_item s0) x s0 l).
  { intros s0 x l C. destruct (ONE s0 x l C) as (s' & E & L & C'). exists s'. split; [|auto].
    cbn. unfold any_item_parse, content in *. revert C. clear - E. induction (segments s0) as [|[|y g] gs IH]; cbn; intros C; try discriminate; auto.
    injection C as -> _. now rewrite E. }
  assert (H2 : forall s0, content s0 = [] -> misses (parse any_item s0) s0).
  { intros s0 C. unfold misses. cbn. unfold any_item_parse, content in *. induction (segments s0) as [|[|y g] gs IH]; cbn in *; auto. discriminate. }
  assert (H3 : forall s0 x l, content s0 = x :: l -> takes content later (parse (the_item eqb x) s0) tt s0 l).
  { intros s0 x l C. destruct (ONE s0 x l C) as (s' & E & L & C'). exists s'. split; [|auto].
    cbn. unfold the_item_parse, content in *. revert C. clear - E HE. induction (segments s0) as [|[|y g] gs IH]; cbn; intros C; try discriminate; auto.
    injection C as -> _. rewrite (proj2 (HE x x) eq_refl), E. reflexivity. }
  assert (H4 : forall s0 x, (forall l, content s0 <> x :: l) -> misses (parse (the_item eqb x) s0) s0).
  { intros s0 x. unfold misses. cbn. unfold the_item_parse, content. induction (segments s0) as [|[|y g] gs IH]; cbn; auto.
    intros C. destruct (eqb y x) eqn:E; auto. apply HE in E. subst y. now destruct (C (g ++ concat gs)). }
  split.
  - intros fuel F. destruct (f_outcome (item_prims eqb) eqb rules content later false (fun _ => False) (content s) HE HR H1 H2 H3 H4)
      with (fuel := fuel) (e := e) (s := s) as [(_ & E)|[E|(o' & O & _)]]; auto; try contradiction; try discriminate; try congruence.
    rewrite F in O. destruct o'; destruct O as (? & O & _); discriminate.
  - apply (f_exact (item_prims eqb) eqb rules content later false (fun _ => False) (content s)); auto; contradiction.
Qed.

(** ** Cases *)

(** Words of letters parted by spaces, with a keyword: rule 0 = keyword / any. *)
Definition words (i : nat) : gexp char :=
  GOr (GAtom [108%N; 101%N; 116%N]) (GJoin (GThe 233%N) (GRep (GThe 98%N))).
Definition source : strref := StrRef 7 4 (Str [233%N; 98%N; 98%N; 32%N]).

(** Over ébb and a space: the keyword misses (3 bytes are é and b), the word is
    read, a meter of bytes counts four. *)
#[local] Instance bytes_read : Meter nat str := fun m s => m + str_len s.
Example C97_case_text :
  parse (parser_on text_prims words 9 (GRef 0)) source =
    Ret (Ok (TLast (TPair TUnit (TMany [TUnit; TUnit]))) (StrRef 7 8 (Str [32%N]))).
Proof. vm_compute. reflexivity. Qed.
Example C97_case_measured :
  parse (parser_on text_prims words 9 (GRef 0)) (Measured 100 source) =
    Ret (Ok (TLast (TPair TUnit (TMany [TUnit; TUnit]))) (Measured 104 (StrRef 7 8 (Str [32%N])))).
Proof. vm_compute. reflexivity. Qed.
Example C97_case_compositional : compositional (fun (m : nat) p => meter_advance m (Str p)).
Proof.
  split; [intros m; unfold meter_advance, bytes_read, str_len; cbn; lia|].
  intros m a b. unfold meter_advance, bytes_read, str_len. cbn [chars]. rewrite chars_len_app. lia.
Qed.
(** A meter that counts the pieces instead: the same result, and three pieces. *)
Example C97_case_pieces : let MM : Meter nat str := fun m _ => m + 1 in
  parse (parser_on text_prims words 9 (GRef 0)) (Measured 0 source) =
    Ret (Ok (TLast (TPair TUnit (TMany [TUnit; TUnit]))) (Measured 3 (StrRef 7 8 (Str [32%N])))).
Proof. vm_compute. reflexivity. Qed.

(** Over bbé the keyword ends inside é: a panic. *)
Example C97_case_panic :
  parse (parser_on text_prims words 9 (GRef 0)) (StrRef 7 0 (Str [98%N; 98%N; 233%N])) = Panic.
Proof. vm_compute. reflexivity. Qed.
Example C97_case_stumbles : stumbles words (GRef 0) [98%N; 98%N; 233%N].
Proof. apply (C97_text_panics words (GRef 0) (StrRef 7 0 (Str [98%N; 98%N; 233%N]))). exists 9. apply C97_case_panic. Qed.

(** ASCII text, ASCII keyword. *)
Example C97_case_ascii (fuel : nat) :
  parse (parser_on text_prims words fuel (GRef 0)) (StrRef 7 0 (Str [108%N; 101%N; 116%N; 33%N])) <> Panic /\
  peg words (GRef 0) [108%N; 101%N; 116%N; 33%N] (PSucc (TFirst TUnit) [33%N]).
Proof.
  assert (Q : forall i, patterns (Forall (fun c => (c < 128)%N)) (words i)).
  { intros i. cbn. split; [|auto]. repeat constructor. }
  destruct (C97_text_ascii words (GRef 0) (StrRef 7 0 (Str [108%N; 101%N; 116%N; 33%N])) (PSucc (TFirst TUnit) [33%N])) as (A & B); auto.
  { repeat constructor. } { exact Logic.I. }
  split; [apply A|]. apply B. exists 9. eexists. split; [vm_compute; reflexivity|]. split; [|reflexivity].
  exists [108%N; 101%N; 116%N]. split; reflexivity.
Qed.

(** A sequence in segments of any lengths, not rewound. *)
#[local] Instance chunked_back {T} : RewindSequence (chunked T) (chunked T) := {
  anchor := fun s => s;
  rewind := fun _ a => Ret a
}.
Example C97_case_segmented :
  outcome_on (fun _ _ : chunked nat => True) content (Chunked [[]; [1]; []; [1; 2]; [5]])
    (parse (parser_on (item_prims Nat.eqb) (fun _ => GRep (GThe 1)) 9 (GJoin (GRef 0) (GThe 2))) (Chunked [[]; [1]; []; [1; 2]; [5]]))
    (PSucc (TPair (TMany [TUnit; TUnit]) TUnit) [5]).
Proof. eexists. split; [vm_compute; reflexivity|]. split; auto. Qed.
Example C97_case_segmented_laws (s : chunked nat) :
  peg (fun _ => GRep (GThe 1)) (GJoin (GRef 0) (GThe 2)) (content s) PFail <->
  exists fuel, outcome_on (fun _ _ => True) content s
    (parse (parser_on (item_prims Nat.eqb) (fun _ => GRep (GThe 1)) fuel (GJoin (GRef 0) (GThe 2))) s) PFail.
Proof.
  destruct (C97_segmented Nat.eqb (fun _ _ => True) (fun _ => GRep (GThe 1)) (GJoin (GRef 0) (GThe 2)) s PFail) as (_ & H); cbn; auto.
  - intros x y. apply Nat.eqb_eq.
  - constructor; auto.
  - apply chunked_lawful.
  - now symmetry.
Qed.

Print Assumptions C97_items_pieces.
Print Assumptions C97_text_pieces.
Print Assumptions C97_items_measured.
Print Assumptions C97_text_measured.
Print Assumptions C97_text.
Print Assumptions C97_text_panics.
Print Assumptions C97_text_exact.
Print Assumptions C97_text_ascii.
Print Assumptions C97_text_once.
Print Assumptions C97_segmented.
