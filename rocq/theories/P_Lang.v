(** * P_Lang: property C102, grammars that one item of lookahead decides. *)
From Verif Require Import L_Lang P_Ends P_Cost P_PegOn.

Section Slices.
  Context {T : Type} (eqb : T -> T -> bool) (eqb_ok : decides_eq eqb) (rules : nat -> gexp T).
  Notation run fuel e := (parse (parser_of eqb rules fuel e)).

  (** Whatever the grammar, what a parser reads is a word of it, and the tree it
      returns says why. *)
  Theorem C102_reads_words fuel e s t s' : run fuel e s = Ret (Ok t s') ->
    exists w, sl_data s = w ++ sl_data s' /\ derives rules e w t.
  Proof.
    intros E. destruct (sound eqb rules eqb_ok fuel e s) as [X|(o & H & P)]; [congruence|].
    destruct o as [t' r| |]; cbn in H; [|destruct H as (? & X & _); congruence..].
    destruct H as (s'' & X & _ & D). rewrite E in X. injection X as <- <-. subst r.
    exact (peg_derives rules e _ _ P t (sl_data s') eq_refl).
  Qed.

  Context (n : nat) (null gentle : nat -> bool) (first follow : nat -> T -> bool) (rank : nat -> nat).
  Context (ok : predictive rules eqb null gentle first follow rank n).
  Context (e : gexp T) (after : T -> bool) (ue : uses n e) (ahead : one_ahead eqb null gentle first follow e after).

  Lemma predicted s : exists o, peg rules e (sl_data s) o /\
    forall fuel, deep_enough n (sl_data s) <= fuel -> has_outcome s (run fuel e s) o.
  Proof.
    apply (C100_orderly eqb eqb_ok rules n (predictive_uses rules eqb null gentle first follow rank n ok) null rank e s); auto.
    - exact (predictive_orderly rules eqb null gentle first follow rank n ok).
    - exact (ahead_repeats eqb null gentle first follow e after ahead).
  Qed.

  (** If one item of lookahead decides, the parser finds every word, with
      every tree, and so does what the unordered grammar says: it reads [w] of
      [w ++ r] with [t] exactly if [t] derives [w], for every [r] that may
      follow. *)
  Theorem C102_exact s t r fuel : deep_enough n (sl_data s) <= fuel -> admits after r ->
    (exists s', run fuel e s = Ret (Ok t s') /\ sl_data s' = r) <-> (exists w, sl_data s = w ++ r /\ derives rules e w t).
  Proof.
    intros L A. split.
    - intros (s' & E & <-). now apply C102_reads_words with fuel.
    - intros (w & E & D). destruct (predicted s) as (o & P & H). specialize (H fuel L). rewrite E in P.
      pose proof (finds rules eqb eqb_ok null gentle first follow rank n ok e w t D r after ue ahead A) as F.
      rewrite <- (peg_det rules _ _ _ F _ P) in H. destruct H as (s' & E' & _ & E''). exists s'. auto.
  Qed.
  (** In particular the whole text is read exactly if it is a word. *)
  Theorem C102_words s fuel : deep_enough n (sl_data s) <= fuel ->
    (exists t s', run fuel e s = Ret (Ok t s') /\ sl_data s' = []) <-> (exists t, derives rules e (sl_data s) t).
  Proof.
    intros L. split.
    - intros (t & s' & H). destruct (proj1 (C102_exact s t [] fuel L Logic.I)) as (w & E & D); [eauto|].
      rewrite app_nil_r in E. subst w. eauto.
    - intros (t & D). destruct (proj2 (C102_exact s t [] fuel L Logic.I)) as (s' & H); [|eauto].
      exists (sl_data s). rewrite app_nil_r. auto.
  Qed.
  (** A word has one tree, and no text has two words of the grammar at its
      front that what comes next allows. *)
  Theorem C102_unambiguous v w q r t u : v ++ q = w ++ r -> admits after q -> admits after r ->
    derives rules e v t -> derives rules e w u -> v = w /\ t = u.
  Proof.
    intros E Aq Ar D D'.
    pose proof (finds rules eqb eqb_ok null gentle first follow rank n ok e v t D q after ue ahead Aq) as F.
    pose proof (finds rules eqb eqb_ok null gentle first follow rank n ok e w u D' r after ue ahead Ar) as F'.
    rewrite E in F. pose proof (peg_det rules _ _ _ F _ F') as X. injection X as -> ->. split; auto. now apply app_inv_tail in E.
  Qed.

  Lemma predicted_calls : exists k, forall l cs, calls rules e l cs -> length cs <= k * (length l + 1).
  Proof.
    destruct (max_below (fun i => S (rank i)) n) as (R & HR).
    destruct (max_below (fun i => size (rules i) * 2 ^ nesting (rules i)) n) as (C & HC).
    set (C' := Nat.max 1 C).
    destruct (max_below (fun i => bnd (C' ^ R) 1 (rules i)) n) as (K & HK).
    set (K' := Nat.max K (bnd (C' ^ R) 1 e)).
    exists ((R + 1) * K' + 1). intros l cs D.
    apply (predictive_cost rules eqb eqb_ok null gentle first follow rank n ok R C' K') with (e := e) (after := after); auto; [unfold C'; lia|..].
    - intros i x I0 X. specialize (HC i I0). cbn in HC. pose proof (bnd_size x 0 (rules i) X) as B. cbn [Nat.add] in B.
      assert (size (rules i) * 2 ^ nesting (rules i) <= C') by (unfold C'; lia).
      assert (size (rules i) * 2 ^ nesting (rules i) * x <= C' * x) by (now apply Nat.mul_le_mono_r). lia.
    - intros i I0. specialize (HK i I0). cbv beta in HK. unfold K'. lia.
    - unfold K'. lia.
  Qed.

  (** It answers every text, word or not, after a number of calls and rewinds
      that is linear in the text. *)
  Theorem C102_linear : exists k, forall s h fuel, deep_enough n (sl_data s) <= fuel ->
    exists r cs, run fuel e s = Ret r /\
      parse (parser_on (ticking_prims (item_prims eqb)) rules fuel e) (s, h) = Ret (logged (h ++ cs) r) /\
      length cs <= k * (length (sl_data s) + 1).
  Proof.
    destruct predicted_calls as (k & B). exists k. intros s h fuel L.
    destruct (predicted s) as (o & P & H). specialize (H fuel L).
    assert (exists r, run fuel e s = Ret r) as (r & E).
    { destruct o; destruct H as (s' & -> & _); eauto. }
    pose proof (C101_slices eqb eqb_ok rules fuel e s h) as Q. rewrite E in Q. destruct Q as (cs & D & Q).
    exists r, cs. auto.
  Qed.
End Slices.

(** The same of text whose patterns do not make [atom] panic (C97). *)
Theorem C102_text (rules : nat -> gexp char) n null gentle first follow rank e after s t r fuel :
  predictive rules N.eqb null gentle first follow rank n -> uses n e -> one_ahead N.eqb null gentle first follow e after ->
  patterns (lies_anywhere (chars (sr_str s))) e -> (forall i, patterns (lies_anywhere (chars (sr_str s))) (rules i)) ->
  deep_enough n (chars (sr_str s)) <= fuel -> admits after r ->
  (exists s', parse (parser_on text_prims rules fuel e) s = Ret (Ok t s') /\ chars (sr_str s') = r) <->
  (exists w, chars (sr_str s) = w ++ r /\ derives rules e w t).
Proof.
  intros ok ue OA PE PR L A.
  assert (OK : decides_eq N.eqb) by (intros x y; apply N.eqb_eq).
  destruct (C97_text_exact rules e s PFail PE PR) as (NP & _).
  destruct (C100_text_orderly rules n (predictive_uses rules N.eqb null gentle first follow rank n ok) null rank e s
    (predictive_orderly rules N.eqb null gentle first follow rank n ok) ue (ahead_repeats N.eqb null gentle first follow e after OA) fuel L)
    as [X|(o & H & P)]; [exfalso; exact (NP fuel X)|].
  split.
  - intros (s' & E & <-). destruct o as [t' r| |]; destruct H as (s'' & E' & H); rewrite E in E'; try discriminate.
    injection E' as <- <-. destruct H as (_ & <-). exact (peg_derives rules e _ _ P _ _ eq_refl).
  - intros (w & E & D). rewrite E in P.
    pose proof (finds rules N.eqb OK null gentle first follow rank n ok e w t D r after ue OA A) as F.
    rewrite <- (peg_det rules _ _ _ F _ P) in H. destruct H as (s' & E' & _ & E''). eauto.
Qed.

(** It answers all such text, in time linear in it. *)
Theorem C102_linear_text (rules : nat -> gexp char) n null gentle first follow rank e after :
  predictive rules N.eqb null gentle first follow rank n -> uses n e -> one_ahead N.eqb null gentle first follow e after ->
  exists k, forall s h fuel,
    patterns (lies_anywhere (chars (sr_str s))) e -> (forall i, patterns (lies_anywhere (chars (sr_str s))) (rules i)) ->
    deep_enough n (chars (sr_str s)) <= fuel ->
    exists r cs, parse (parser_on text_prims rules fuel e) s = Ret r /\
      parse (parser_on (ticking_prims text_prims) rules fuel e) (s, h) = Ret (logged (h ++ cs) r) /\
      length cs <= k * (length (chars (sr_str s)) + 1).
Proof.
  intros ok ue OA. assert (OK : decides_eq N.eqb) by (intros x y; apply N.eqb_eq).
  destruct (predicted_calls N.eqb OK rules n null gentle first follow rank ok e after ue OA) as (k & B). exists k. intros s h fuel PE PR L.
  destruct (C97_text_exact rules e s PFail PE PR) as (NP & _).
  destruct (C100_text_orderly rules n (predictive_uses rules N.eqb null gentle first follow rank n ok) null rank e s
    (predictive_orderly rules N.eqb null gentle first follow rank n ok) ue (ahead_repeats N.eqb null gentle first follow e after OA) fuel L)
    as [X|(o & H & P)]; [exfalso; exact (NP fuel X)|].
  assert (exists r, parse (parser_on text_prims rules fuel e) s = Ret r) as (r & E).
  { destruct o; destruct H as (s' & -> & _); eauto. }
  pose proof (C101_text rules fuel e s h) as Q. rewrite E in Q. destruct Q as (cs & D & Q). exists r, cs. auto.
Qed.

(** ** Without it *)

(** Order hides words: 'a' / 'a' 'b' never reads "ab" to its end, although it is
      a word. *)
Definition hides : gexp nat := GOr (GThe 1) (GJoin (GThe 1) (GThe 2)).
(** So does greed: 'a'* 'a' reads nothing at all. *)
Definition greedy : gexp nat := GJoin (GRep (GThe 1)) (GThe 1).
Theorem C102_order_and_greed rules :
  (exists t, derives rules hides [1; 2] t) /\
  (forall fuel s t s', sl_data s = [1; 2] -> parse (parser_of Nat.eqb rules fuel hides) s = Ret (Ok t s') -> sl_data s' = [2]) /\
  (forall k, exists t, derives rules greedy (repeat 1 (S k)) t) /\
  (forall fuel s t s', parse (parser_of Nat.eqb rules fuel greedy) s <> Ret (Ok t s')).
Proof.
  split; [|split; [|split]].
  - exists (TLast (TPair TUnit TUnit)). apply dv_last. apply (dv_join rules _ _ [1] [2]); constructor.
  - intros fuel s t s' E H. destruct (sound Nat.eqb rules nat_ok fuel hides s) as [X|(o & X & P)]; [congruence|].
    rewrite E in P. rewrite H in X. destruct o as [t0 r| |]; cbn in X; [|destruct X as (? & X & _); congruence..].
    destruct X as (s'' & X & _ & <-). injection X as <- <-.
    assert (P0 : peg rules hides [1; 2] (PSucc (TFirst TUnit) [2])) by (apply pg_or_first; constructor).
    pose proof (peg_det rules _ _ _ P0 _ P) as Y. now injection Y.
  - intros k. exists (TPair (TMany (repeat TUnit k)) TUnit).
    replace (repeat 1 (S k)) with (repeat 1 k ++ [1]).
    + constructor; [|constructor]. induction k; [constructor|]. apply (dv_more rules (GThe 1) [1]); [constructor|exact IHk].
    + symmetry. apply repeat_cons.
  - intros fuel s t s' H. destruct (sound Nat.eqb rules nat_ok fuel greedy s) as [X|(o & X & P)]; [congruence|].
    rewrite H in X. destruct o as [t0 r| |]; cbn in X; [|destruct X as (? & X & _); congruence..].
    assert (Y : forall l o, peg rules (GRep (GThe 1)) l o -> forall t m, o = PSucc t m -> forall m', m <> 1 :: m').
    { clear. intros l o P. remember (GRep (GThe 1)) as a eqn:Ea. induction P; try discriminate; intros u q E; try discriminate.
      - injection E as <- <-. injection Ea as ->. inversion P; subst; auto.
      - injection E as <- <-. injection Ea as ->. exact (IHP2 eq_refl _ _ eq_refl). }
    inversion P; subst. match goal with Z : peg rules (GRep _) _ _, Z' : peg rules (GThe 1) _ _ |- _ =>
      inversion Z'; subst; exact (Y _ _ Z _ _ eq_refl _ eq_refl) end.
Qed.

(** ** Cases *)

(** The sums of C100: 0 = 1 ('+' 1)*, 1 = '(' 0 ')' / 'x', and the same with an
    optional sign: 1 = '-'? ('(' 0 ')' / 'x'). *)
Definition signed (i : nat) : gexp nat :=
  match i with
  | 0 => GJoin (GRef 1) (GRep (GJoin (GThe 1) (GCut (GRef 1))))
  | 1 => GJoin (GOpt (GThe 5)) (GRef 2)
  | _ => GOr (GJoin (GThe 2) (GJoin (GRef 0) (GThe 3))) (GThe 4)
  end.
Definition signed_first (i x : nat) : bool :=
  match i with
  | 0 | 1 => (5 =? x) || ((2 =? x) || (4 =? x))
  | _ => (2 =? x) || (4 =? x)
  end.
Definition signed_follow (i x : nat) : bool :=
  match i with 0 => 3 =? x | _ => (3 =? x) || (1 =? x) end.
Lemma signed_predictive : predictive signed Nat.eqb (fun _ => false) (fun _ => true) signed_first signed_follow (fun i => 2 - i) 3.
Proof.
  intros [|[|[|i]]] L; [..|lia]; unfold predictive, then_after, apart; cbn;
    repeat split; auto; try lia; try discriminate;
    intros [|[|[|[|[|[|x]]]]]]; cbn; auto; discriminate.
Qed.
Example C102_case_signed s fuel : deep_enough 3 (sl_data s) <= fuel ->
  (exists t s', parse (parser_of Nat.eqb signed fuel (GRef 0)) s = Ret (Ok t s') /\ sl_data s' = []) <->
  (exists t, derives signed (GRef 0) (sl_data s) t).
Proof.
  apply (C102_words Nat.eqb nat_ok signed 3 _ _ _ _ _ signed_predictive (GRef 0) (fun x => 3 =? x)); cbn; auto.
Qed.
(** -(x + x) + x *)
Example C102_case_value :
  parse (parser_of Nat.eqb signed 30 (GRef 0)) (Slice 5 1 [5; 2; 4; 1; 4; 3; 1; 4]) =
  Ret (Ok (TPair (TPair (TSome TUnit) (TFirst (TPair TUnit (TPair
             (TPair (TPair TNone (TLast TUnit)) (TMany [TPair TUnit (TPair TNone (TLast TUnit))])) TUnit))))
             (TMany [TPair TUnit (TPair TNone (TLast TUnit))])) (Slice 5 9 [])).
Proof. vm_compute. reflexivity. Qed.
Example C102_case_linear : exists k, forall s h fuel, deep_enough 3 (sl_data s) <= fuel ->
  exists r cs, parse (parser_of Nat.eqb signed fuel (GRef 0)) s = Ret r /\
    parse (parser_on (ticking_prims (item_prims Nat.eqb)) signed fuel (GRef 0)) (s, h) = Ret (logged (h ++ cs) r) /\
    length cs <= k * (length (sl_data s) + 1).
Proof.
  apply (C102_linear Nat.eqb nat_ok signed 3 _ _ _ _ _ signed_predictive (GRef 0) (fun x => 3 =? x)); cbn; auto.
Qed.
Example C102_case_unambiguous v w t u : derives signed (GRef 0) v t -> derives signed (GRef 0) w u ->
  v ++ [3; 3] = w ++ [3] -> False.
Proof.
  intros D D' E.
  destruct (C102_unambiguous Nat.eqb nat_ok signed 3 _ _ _ _ _ signed_predictive (GRef 0) (fun x => 3 =? x)) with
    (v := v) (w := w) (q := [3; 3]) (r := [3]) (t := t) (u := u) as (-> & _); cbn; auto.
  apply app_inv_head in E. discriminate.
Qed.
(** Brackets in text: 0 = ('(' 0 ')')*. *)
Definition brackets (_ : nat) : gexp char := GRep (GJoin (GThe 40%N) (GJoin (GRef 0) (GThe 41%N))).
Lemma brackets_predictive : predictive brackets N.eqb (fun _ => true) (fun _ => true) (fun _ x => N.eqb 40 x || false)%bool
  (fun _ x => N.eqb 41 x) (fun _ => 0) 1.
Proof.
  intros i L. assert (i = 0) as -> by lia. unfold then_after, apart.
  cbn [brackets uses may_be_empty starts soft one_ahead called_first]. unfold then_after, apart.
  cbn [brackets uses may_be_empty starts soft one_ahead called_first]. cbn [andb negb orb Nat.max].
  repeat split; auto.
  - intros x A. rewrite Bool.orb_false_r in A. exact A.
  - intros x A B. rewrite Bool.orb_false_r in A. apply N.eqb_eq in A, B. subst x. discriminate.
Qed.
Example C102_case_text s t fuel : deep_enough 1 (chars (sr_str s)) <= fuel ->
  (exists s', parse (parser_on text_prims brackets fuel (GRef 0)) s = Ret (Ok t s') /\ chars (sr_str s') = []) <->
  (exists w, chars (sr_str s) = w ++ [] /\ derives brackets (GRef 0) w t).
Proof.
  intros L. apply (C102_text brackets 1 _ _ _ _ _ (GRef 0) (fun x => N.eqb 41 x) s t [] fuel brackets_predictive); cbn; auto.
Qed.
Example C102_case_linear_text : exists k, forall s h fuel, deep_enough 1 (chars (sr_str s)) <= fuel ->
  exists r cs, parse (parser_on text_prims brackets fuel (GRef 0)) s = Ret r /\
    parse (parser_on (ticking_prims text_prims) brackets fuel (GRef 0)) (s, h) = Ret (logged (h ++ cs) r) /\
    length cs <= k * (length (chars (sr_str s)) + 1).
Proof.
  destruct (C102_linear_text brackets 1 _ _ _ _ _ (GRef 0) (fun x => N.eqb 41 x) brackets_predictive) as (k & H); cbn; auto.
  exists k. intros s h fuel L. apply H; cbn; auto.
Qed.

Print Assumptions C102_reads_words.
Print Assumptions C102_exact.
Print Assumptions C102_words.
Print Assumptions C102_unambiguous.
Print Assumptions C102_linear.
Print Assumptions C102_text.
Print Assumptions C102_order_and_greed.
Print Assumptions C102_linear_text.
