(** * P_Cost: property C101, how much a recursive parser does. *)
From Verif Require Import L_Cost P_Ends.

Section Slices.
  Context {T : Type} (eqb : T -> T -> bool) (eqb_ok : decides_eq eqb) (rules : nat -> gexp T).
  Notation run fuel e := (parse (parser_of eqb rules fuel e)).
  Notation runs fuel e := (parse (parser_on (ticking_prims (item_prims eqb)) rules fuel e)).

  Lemma slice_record fuel e s h : records (callsd rules fuel e (sl_data s)) h (run fuel e s) (runs fuel e (s, h)).
  Proof.
    apply (run_record (item_prims eqb) rules later_slice (fun s => sl_data s)).
    - intros s0 m L. now apply slice_rewind_later.
    - intros f e0 s0 r R. destruct (sound eqb rules eqb_ok f e0 s0) as [E|(o & H & G)].
      + exfalso. rewrite parser_on_slice in R. rewrite R in E. discriminate.
      + exists o. split; auto. rewrite parser_on_slice in R. rewrite R in H. exact H.
  Qed.

  (** The item parsers called and the rewinds made are those that [calls] lists,
      in that order, and the result is the one without the record. *)
  Theorem C101_slices fuel e s h :
    match run fuel e s with
    | Ret r => exists cs, calls rules e (sl_data s) cs /\ runs fuel e (s, h) = Ret (logged (h ++ cs) r)
    | c => runs fuel e (s, h) = match c with UB => UB | OutOfFuel => OutOfFuel | _ => Panic end
    end.
  Proof.
    pose proof (slice_record fuel e s h) as R. destruct (run fuel e s) as [r| | |]; cbn in R; auto.
    destruct R as (cs & C & R). exists cs. split; auto. now apply callsd_calls with fuel.
  Qed.

  (** There is one record for what is answered and none for what is not. *)
  Theorem C101_one_record e l :
    ((exists o, peg rules e l o) <-> (exists cs, calls rules e l cs)) /\
    forall cs cs', calls rules e l cs -> calls rules e l cs' -> cs = cs'.
  Proof.
    split; [split|].
    - intros (o & P). exact (answered_calls rules e l o P).
    - intros (cs & C). exact (calls_answered eqb eqb_ok rules e l cs C).
    - intros cs cs' C C'. exact (calls_det rules e l cs C cs' C').
  Qed.

  (** Without recursion it is at most a polynomial of the length of the text: as
      many factors as repetitions are nested. *)
  Theorem C101_without_recursion e l cs : rule_free e -> calls rules e l cs ->
    length cs <= size e * (length l + 2) ^ nesting e.
  Proof.
    intros F C. apply flat_depth in C; auto.
    assert (U : forall e : gexp T, rule_free e -> uses 0 e).
    { clear. induction e; cbn; tauto. }
    destruct (callsd_bnd eqb eqb_ok rules 0 1 0 (length l)) with (d := 0) (e := e) (l := l) (h := cs) as (B & _); auto; try lia.
    pose proof (bnd_size 1 (length l) e (le_n _)). cbn [Nat.pow] in B. lia.
  Qed.

  (** With it, at most an exponential. *)
  Theorem C101_with_recursion n c k e l cs : (forall i, i < n -> uses n (rules i)) ->
    (forall i, i < n -> size (rules i) <= c /\ nesting (rules i) <= k) -> 1 <= c -> uses n e -> calls rules e l cs ->
    length cs <= size e * (length l + 2) ^ nesting e * (c * (length l + 2) ^ k) ^ (n * (length l + 1) + length l + 2).
  Proof.
    intros F SM C1 U C. destruct (calls_answered eqb eqb_ok rules e l cs C) as (o & P).
    set (s := Slice 0 0 l). set (fuel := n * (length l + 1) + length l + 2).
    assert (R : has_outcome s (run fuel e s) o).
    { destruct (outcome_or_round eqb rules eqb_ok n l F (length (places n l)) [] (NoDup_nil _)
        (incl_nil_l _) eq_refl e l U (sfx_refl _)) as [(o' & P' & R)|R]; [cbn; tauto| |exfalso; exact (answered_not_round rules e l o P R)].
      apply known; auto. apply R; auto. rewrite places_length. unfold fuel. lia. }
    pose proof (slice_record fuel e s []) as Q.
    assert (exists r, run fuel e s = Ret r) as (r & E) by (destruct o; destruct R as (s' & -> & _); eauto).
    rewrite E in Q. destruct Q as (cs' & D & _). cbn [sl_data s] in D.
    assert (cs = cs') as <- by (apply (calls_det rules e l); auto; now apply callsd_calls with fuel).
    destruct (callsd_bnd eqb eqb_ok rules n c k (length l) F SM C1 fuel e l cs D U (le_n _)) as (B & _).
    eapply Nat.le_trans; [exact B|]. apply bnd_size. now apply D_pos.
  Qed.
End Slices.

(** The same record over text. *)
Theorem C101_text (rules : nat -> gexp char) fuel e (s : strref) h :
  match parse (parser_on text_prims rules fuel e) s with
  | Ret r => exists cs, calls rules e (chars (sr_str s)) cs /\
      parse (parser_on (ticking_prims text_prims) rules fuel e) (s, h) = Ret (logged (h ++ cs) r)
  | c => parse (parser_on (ticking_prims text_prims) rules fuel e) (s, h) = match c with UB => UB | OutOfFuel => OutOfFuel | _ => Panic end
  end.
Proof.
  assert (R : records (callsd rules fuel e (chars (sr_str s))) h (parse (parser_on text_prims rules fuel e) s)
    (parse (parser_on (ticking_prims text_prims) rules fuel e) (s, h))).
  { apply (run_record text_prims rules later_str (fun s => chars (sr_str s))).
    - intros s0 m L. now apply str_lawful.
    - intros f e0 s0 r R. destruct (text_outcome rules f e0 s0) as [E|[E|(o & H & G)]]; [exfalso; congruence..|].
      exists o. rewrite R in H. auto. }
  destruct (parse (parser_on text_prims rules fuel e) s) as [r| | |]; cbn in R; auto.
  destruct R as (cs & C & R). exists cs. split; auto. now apply callsd_calls with fuel.
Qed.

(** ** The exponential is reached *)

(** 0 = 'a' 0 'b' / ('a' 0 'c' / 'd'); [1], [2], [3] and [4] for the letters. *)
Definition twice (_ : nat) : gexp nat :=
  GOr (GJoin (GThe 1) (GJoin (GRef 0) (GThe 2))) (GOr (GJoin (GThe 1) (GJoin (GRef 0) (GThe 3))) (GThe 4)).

Lemma the_not (x y : nat) l rules : x <> y -> peg rules (GThe x) (y :: l) PFail.
Proof. intros N. apply pg_the_not. intros l' E. injection E as -> _. now apply N. Qed.
Lemma the_end (x : nat) rules : peg rules (GThe x) [] PFail.
Proof. apply pg_the_not. discriminate. Qed.

Lemma twice_d : peg twice (GRef 0) [4] (PSucc (TLast (TLast TUnit)) []).
Proof.
  constructor. cbn. apply pg_or_last; [apply pg_join_fail1, the_not; discriminate|].
  apply pg_or_last; [apply pg_join_fail1, the_not; discriminate|constructor].
Qed.
Lemma twice_fails n : peg twice (GRef 0) (repeat 1 (S n) ++ [4]) PFail.
Proof.
  induction n as [|n IH].
  - constructor. cbn. apply pg_or_fail; [|apply pg_or_fail; [|apply the_not; discriminate]];
      (eapply pg_join_fail2; [constructor|]); (eapply pg_join_fail2; [apply twice_d|apply the_end]).
  - constructor. cbn. apply pg_or_fail; [|apply pg_or_fail; [|apply the_not; discriminate]];
      (eapply pg_join_fail2; [constructor|]); apply pg_join_fail1; exact IH.
Qed.
Lemma twice_calls n : exists cs, calls twice (GRef 0) (repeat 1 (S n) ++ [4]) cs /\ length cs + 5 = 11 * 2 ^ (S n).
Proof.
  induction n as [|n (cs & C & L)].
  - eexists. split.
    + constructor. cbn. eapply ca_or_next.
      * eapply pg_join_fail2; [constructor|]. eapply pg_join_fail2; [apply twice_d|apply the_end].
      * eapply ca_join; [constructor|constructor|]. eapply ca_join; [apply twice_d| |constructor].
        constructor. cbn. eapply ca_or_next; [apply pg_join_fail1, the_not; discriminate| |].
        { eapply ca_join_not; [apply the_not; discriminate|discriminate|constructor]. }
        eapply ca_or_next; [apply pg_join_fail1, the_not; discriminate| |constructor].
        eapply ca_join_not; [apply the_not; discriminate|discriminate|constructor].
      * eapply ca_or_next; [|eapply ca_join; [constructor|constructor|]|constructor].
        { eapply pg_join_fail2; [constructor|]. eapply pg_join_fail2; [apply twice_d|apply the_end]. }
        eapply ca_join; [apply twice_d| |constructor].
        constructor. cbn. eapply ca_or_next; [apply pg_join_fail1, the_not; discriminate| |].
        { eapply ca_join_not; [apply the_not; discriminate|discriminate|constructor]. }
        eapply ca_or_next; [apply pg_join_fail1, the_not; discriminate| |constructor].
        eapply ca_join_not; [apply the_not; discriminate|discriminate|constructor].
    + cbn. reflexivity.
  - eexists. split.
    + constructor. cbn. eapply ca_or_next.
      * eapply pg_join_fail2; [constructor|]. apply pg_join_fail1. exact (twice_fails n).
      * eapply ca_join; [constructor|constructor|]. eapply ca_join_not; [exact (twice_fails n)|discriminate|exact C].
      * eapply ca_or_next; [|eapply ca_join; [constructor|constructor|]|constructor].
        { eapply pg_join_fail2; [constructor|]. apply pg_join_fail1. exact (twice_fails n). }
        eapply ca_join_not; [exact (twice_fails n)|discriminate|exact C].
    + cbn [length app]. rewrite !app_length. cbn [length app]. rewrite !app_length. cbn [length]. cbn [Nat.pow] in *. lia.
Qed.

(** The number of calls and rewinds doubles with every letter. *)
Theorem C101_exponential_reached n cs : calls twice (GRef 0) (repeat 1 (S n) ++ [4]) cs -> length cs + 5 = 11 * 2 ^ (S n).
Proof.
  intros C. destruct (twice_calls n) as (cs' & C' & L). now rewrite (calls_det twice _ _ _ C _ C').
Qed.

Lemma beats_linear c k : exists j, c + (j + 1) * k < 2 ^ j /\ 1 <= j.
Proof.
  set (i := c + 2 * k + 1). exists (2 * i). split; [|lia]. rewrite Nat.pow_mul_r. change (2 ^ 2) with 4.
  assert (X : forall i, (i + 1) * (i + 1) <= 4 ^ i).
  { clear. induction i as [|i IH]; cbn [Nat.pow]; [lia|]. nia. }
  specialize (X i). assert ((i + 1) * (c + 2 * k + 2) <= (i + 1) * (i + 1)) by (apply Nat.mul_le_mono_l; lia). nia.
Qed.
Lemma beats_powers c k : exists n, c * (n + 2) ^ k < 2 ^ n.
Proof.
  destruct (beats_linear c k) as (j & L & J). exists (2 ^ j).
  assert (A : 2 ^ j + 2 <= 2 ^ (j + 1)).
  { replace (j + 1) with (S j) by lia. cbn [Nat.pow]. destruct j as [|j]; [lia|]. cbn [Nat.pow]. pose proof (Nat.pow_nonzero 2 j). lia. }
  assert (B : (2 ^ j + 2) ^ k <= 2 ^ ((j + 1) * k)).
  { rewrite Nat.pow_mul_r. now apply Nat.pow_le_mono_l. }
  assert (D : c <= 2 ^ c) by (apply Nat.lt_le_incl, Nat.pow_gt_lin_r; lia).
  apply Nat.le_lt_trans with (2 ^ (c + (j + 1) * k)).
  - rewrite Nat.pow_add_r. now apply Nat.mul_le_mono.
  - apply Nat.pow_lt_mono_r; lia.
Qed.

(** So no polynomial bounds what recursive grammars do. *)
Theorem C101_no_polynomial :
  ~ exists c k, forall l cs, calls twice (GRef 0) l cs -> length cs <= c * (length l + 1) ^ k.
Proof.
  intros (c & k & H). destruct (beats_powers c k) as (n & L).
  destruct n as [|n].
  - cbn in L. assert (2 ^ k <> 0) by (apply Nat.pow_nonzero; lia). assert (c = 0) as -> by nia.
    destruct (twice_calls 0) as (cs & C & E). specialize (H _ _ C). cbn in E. lia.
  - destruct (twice_calls n) as (cs & C & E). specialize (H _ _ C).
    rewrite app_length, repeat_length in H. cbn [length] in H. replace (S n + 1 + 1) with (S n + 2) in H by lia.
    pose proof (Nat.pow_nonzero 2 n). cbn [Nat.pow] in *. lia.
Qed.

(** ** Grammars that commit *)

Lemma max_below (f : nat -> nat) n : exists M, forall i, i < n -> f i <= M.
Proof.
  induction n as [|n (M & H)]; [exists 0; lia|]. exists (Nat.max M (f n)). intros i L.
  destruct (Nat.eq_dec i n) as [->|]; [lia|]. specialize (H i). lia.
Qed.

Section Commits.
  Context {T : Type} (eqb : T -> T -> bool) (eqb_ok : decides_eq eqb) (rules : nat -> gexp T).
  Context (n : nat) (null sure quick : nat -> bool) (rank : nat -> nat).

  Lemma linear_calls e : (forall i, i < n -> uses n (rules i)) -> orderly rules null rank n -> committed rules sure quick n ->
    uses n e -> repeats_something null e = true -> commits sure quick e = true ->
    exists k, forall l cs, calls rules e l cs -> length cs <= k * (length l + 1).
  Proof.
    intros F O0 CM U RS CE.
    destruct (max_below (fun i => S (rank i)) n) as (R & HR).
    destruct (max_below (fun i => size (rules i) * 2 ^ nesting (rules i)) n) as (C & HC).
    set (C' := Nat.max 1 C).
    destruct (max_below (fun i => bnd (C' ^ R) 1 (rules i)) n) as (K & HK).
    set (K' := Nat.max K (bnd (C' ^ R) 1 e)).
    exists ((R + 1) * K' + 1). intros l cs D.
    apply (linear_bnd eqb eqb_ok rules n null sure quick rank R C' K') with (e := e); auto; [unfold C'; lia|..].
    - intros i x I0 X. specialize (HC i I0). cbn in HC. pose proof (bnd_size x 0 (rules i) X) as B. cbn [Nat.add] in B.
      assert (size (rules i) * 2 ^ nesting (rules i) <= C') by (unfold C'; lia).
      assert (size (rules i) * 2 ^ nesting (rules i) * x <= C' * x) by (now apply Nat.mul_le_mono_r). lia.
    - intros i I0. specialize (HK i I0). cbv beta in HK. unfold K'. lia.
    - unfold K'. lia.
  Qed.

  (** An orderly grammar in which alternatives, options and repetitions fail
      before they read anything takes time linear in the text. *)
  Theorem C101_linear e : (forall i, i < n -> uses n (rules i)) -> orderly rules null rank n -> committed rules sure quick n ->
    uses n e -> repeats_something null e = true -> commits sure quick e = true ->
    exists k, forall s h fuel, deep_enough n (sl_data s) <= fuel ->
      exists r cs, parse (parser_of eqb rules fuel e) s = Ret r /\
        parse (parser_on (ticking_prims (item_prims eqb)) rules fuel e) (s, h) = Ret (logged (h ++ cs) r) /\
        length cs <= k * (length (sl_data s) + 1).
  Proof.
    intros F O0 CM U RS CE.
    destruct (linear_calls e F O0 CM U RS CE) as (k & B). exists k. intros s h fuel L.
    destruct (C100_orderly eqb eqb_ok rules n F null rank e s O0 U RS) as (o & P & H). specialize (H fuel L).
    assert (exists r, parse (parser_of eqb rules fuel e) s = Ret r) as (r & E).
    { destruct o; destruct H as (s' & -> & _); eauto. }
    pose proof (C101_slices eqb eqb_ok rules fuel e s h) as Q. rewrite E in Q. destruct Q as (cs & D & Q).
    exists r, cs. auto.
  Qed.
End Commits.

(** The same of text, unless a pattern makes [atom] panic (C97). *)
Theorem C101_linear_text (rules : nat -> gexp char) n null sure quick rank e :
  (forall i, i < n -> uses n (rules i)) -> orderly rules null rank n -> committed rules sure quick n ->
  uses n e -> repeats_something null e = true -> commits sure quick e = true ->
  exists k, forall (s : strref) h fuel, deep_enough n (chars (sr_str s)) <= fuel ->
    parse (parser_on text_prims rules fuel e) s = Panic \/
    exists r cs, parse (parser_on text_prims rules fuel e) s = Ret r /\
      parse (parser_on (ticking_prims text_prims) rules fuel e) (s, h) = Ret (logged (h ++ cs) r) /\
      length cs <= k * (length (chars (sr_str s)) + 1).
Proof.
  intros F O0 CM U RS CE.
  assert (OK : decides_eq N.eqb) by (intros x y; apply N.eqb_eq).
  destruct (linear_calls N.eqb OK rules n null sure quick rank e F O0 CM U RS CE) as (k & B). exists k. intros s h fuel L.
  destruct (C100_text_orderly rules n F null rank e s O0 U RS fuel L) as [X|(o & H & P)]; [auto|]. right.
  assert (exists r, parse (parser_on text_prims rules fuel e) s = Ret r) as (r & E).
  { destruct o; destruct H as (s' & -> & _); eauto. }
  pose proof (C101_text rules fuel e s h) as Q. rewrite E in Q. destruct Q as (cs & D & Q). exists r, cs. auto.
Qed.

(** ** Cases *)

(** The sums of C100 with cuts: 0 = 1 ('+' cut(1))*, 1 = '(' cut(0 ')') / 'x'. *)
Definition cut_sums (i : nat) : gexp nat :=
  match i with
  | 0 => GJoin (GRef 1) (GRep (GJoin (GThe 1) (GCut (GRef 1))))
  | _ => GOr (GJoin (GThe 2) (GCut (GJoin (GRef 0) (GThe 3)))) (GThe 4)
  end.
Example C101_case_linear : exists k, forall s h fuel, deep_enough 2 (sl_data s) <= fuel ->
  exists r cs, parse (parser_of Nat.eqb cut_sums fuel (GRef 0)) s = Ret r /\
    parse (parser_on (ticking_prims (item_prims Nat.eqb)) cut_sums fuel (GRef 0)) (s, h) = Ret (logged (h ++ cs) r) /\
    length cs <= k * (length (sl_data s) + 1).
Proof.
  apply (C101_linear Nat.eqb nat_ok cut_sums 2 (fun _ => false) (fun _ => false) (fun _ => true)
    (fun i => match i with 0 => 1 | _ => 0 end)); cbn; auto.
  - intros [|[|i]] H; cbn; repeat split; lia.
  - intros [|[|i]] H; cbn; repeat split; try lia; discriminate.
  - intros [|[|i]] H; cbn; repeat split; try lia; discriminate.
Qed.
(** (x + x) + x: twelve calls of item parsers and five rewinds. *)
Example C101_case_value :
  parse (parser_on (ticking_prims (item_prims Nat.eqb)) cut_sums 30 (GRef 0)) (Slice 5 0 [2; 4; 1; 4; 3; 1; 4], []) =
  Ret (Ok (TPair (TFirst (TPair TUnit (TPair (TPair (TLast TUnit) (TMany [TPair TUnit (TLast TUnit)])) TUnit)))
                 (TMany [TPair TUnit (TLast TUnit)]))
          (Slice 5 7 [],
           [Tried; Tried; Undid; Tried; Tried; Tried; Undid; Tried; Tried; Undid; Tried; Tried; Tried; Undid; Tried; Tried; Undid])).
Proof. vm_compute. reflexivity. Qed.
(** A bracket that has been opened has to be closed: 0 = ('(' cut(0 ')'))*. *)
Definition cut_brackets (_ : nat) : gexp char := GRep (GJoin (GThe 40%N) (GCut (GJoin (GRef 0) (GThe 41%N)))).
Example C101_case_linear_text : exists k, forall (s : strref) h fuel, deep_enough 1 (chars (sr_str s)) <= fuel ->
  parse (parser_on text_prims cut_brackets fuel (GRef 0)) s = Panic \/
  exists r cs, parse (parser_on text_prims cut_brackets fuel (GRef 0)) s = Ret r /\
    parse (parser_on (ticking_prims text_prims) cut_brackets fuel (GRef 0)) (s, h) = Ret (logged (h ++ cs) r) /\
    length cs <= k * (length (chars (sr_str s)) + 1).
Proof.
  apply (C101_linear_text cut_brackets 1 (fun _ => true) (fun _ => false) (fun _ => true) (fun _ => 0)); cbn; auto.
  - intros i H. cbn. repeat split; lia.
  - intros [|i] H; cbn; repeat split; try lia; try discriminate.
Qed.
(** [('a'* 'b' / 'a')*] looks for 'b' from every place: quadratic. *)
Definition looks : gexp nat := GRep (GOr (GJoin (GRep (GThe 1)) (GThe 2)) (GThe 1)).
Example C101_case_flat rules l cs : calls rules looks l cs -> length cs <= 6 * (length l + 2) ^ 2.
Proof. intros C. apply (C101_without_recursion Nat.eqb nat_ok rules looks l cs); auto. cbn. tauto. Qed.
Example C101_case_flat_value : exists r cs,
  parse (parser_on (ticking_prims (item_prims Nat.eqb)) (fun _ => GAny) 20 looks) (Slice 0 0 [1; 1; 1; 1; 1; 1], []) =
    Ret (Ok r (Slice 0 6 [], cs)) /\ length cs = 57.
Proof. eexists. eexists. split; [vm_compute; reflexivity|]. reflexivity. Qed.
Example C101_case_twice : exists r s cs,
  parse (parser_on (ticking_prims (item_prims Nat.eqb)) twice 20 (GRef 0)) (Slice 0 0 [1; 1; 1; 1; 1; 4], []) =
    Ret (Err r (s, cs)) /\ length cs + 5 = 352.
Proof. eexists. eexists. eexists. split; [vm_compute; reflexivity|]. reflexivity. Qed.

Print Assumptions C101_slices.
Print Assumptions C101_one_record.
Print Assumptions C101_without_recursion.
Print Assumptions C101_with_recursion.
Print Assumptions C101_text.
Print Assumptions C101_exponential_reached.
Print Assumptions C101_no_polynomial.
Print Assumptions C101_linear.
Print Assumptions C101_linear_text.
