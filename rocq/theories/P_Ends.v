(** * P_Ends: property C100, when a recursive parser comes to an end. *)
From Verif Require Import L_PegOn L_Ends.

(** How deep the calls of parser functions may be nested: once for every
    function and every place in the text, and one turn of a repetition for every
    item and two more. *)
Definition deep_enough (n : nat) {T} (l : list T) : nat := n * S (length l) + length l + 2.

Section Ends.
  Context {T : Type} (eqb : T -> T -> bool) (eqb_ok : decides_eq eqb).
  Context (rules : nat -> gexp T) (n : nat) (fin : forall i, i < n -> uses n (rules i)).
  Notation run fuel e := (parse (parser_of eqb rules fuel e)).

  Lemma settles e s : uses n e ->
    (exists o, peg rules e (sl_data s) o /\ forall fuel, deep_enough n (sl_data s) <= fuel -> has_outcome s (run fuel e s) o) \/
    goes_round rules e (sl_data s).
  Proof.
    intros U. destruct (outcome_or_round eqb rules eqb_ok n (sl_data s) fin (length (places n (sl_data s))) [] (NoDup_nil _)
      (incl_nil_l _) eq_refl e (sl_data s) U (sfx_refl _)) as [(o & P & R)|R]; [cbn; tauto|left|right; exact R].
    exists o. split; auto. intros fuel F. apply known; auto. apply R; auto. rewrite places_length. exact F.
  Qed.

  (** A grammar of finitely many rules says something of a text exactly if no
      question needs its own answer. *)
  Theorem C100_answered_iff e l : uses n e -> (exists o, peg rules e l o) <-> ~ goes_round rules e l.
  Proof.
    intros U. split.
    - intros (o & P). now apply (answered_not_round rules e l o).
    - intros G. destruct (settles e (Slice 0 0 l) U) as [(o & P & _)|R]; [eauto|contradiction].
  Qed.

  (** The parser goes on for ever exactly if one does. *)
  Theorem C100_never_iff e s : uses n e -> (forall fuel, run fuel e s = OutOfFuel) <-> goes_round rules e (sl_data s).
  Proof.
    intros U. split.
    - intros H. destruct (settles e s U) as [(o & P & R)|R]; auto. specialize (R _ (le_n _)). rewrite H in R.
      destruct o; destruct R as (? & R & _); discriminate.
    - intros R fuel. destruct (sound eqb rules eqb_ok fuel e s) as [E|(o & _ & P)]; auto.
      now apply answered_not_round in P.
  Qed.

  (** Calls nested deeper than the number of rules times the places in the text
      mean that it goes on for ever. *)
  Theorem C100_depth e s fuel : uses n e -> deep_enough n (sl_data s) <= fuel ->
    run fuel e s = OutOfFuel -> goes_round rules e (sl_data s) /\ forall fuel', run fuel' e s = OutOfFuel.
  Proof.
    intros U F H. assert (R : goes_round rules e (sl_data s)).
    { destruct (settles e s U) as [(o & P & R)|R]; auto. specialize (R _ F). rewrite H in R.
      destruct o; destruct R as (? & R & _); discriminate. }
    split; auto. now apply C100_never_iff.
  Qed.

  (** A grammar in which no rule comes to itself before anything was read, and
      no repetition repeats what may be empty, answers every text. *)
  Theorem C100_orderly null rank e s : orderly rules null rank n -> uses n e -> repeats_something null e = true ->
    exists o, peg rules e (sl_data s) o /\ forall fuel, deep_enough n (sl_data s) <= fuel -> has_outcome s (run fuel e s) o.
  Proof.
    intros O0 U R. destruct (settles e s U) as [H|G]; auto. now apply (orderly_not_round rules n null rank fin O0) in G.
  Qed.
End Ends.

(** The same of text, which may panic besides (C97). *)
Section Text.
  Context (rules : nat -> gexp char) (n : nat) (fin : forall i, i < n -> uses n (rules i)).
  Notation run fuel e := (parse (parser_on text_prims rules fuel e)).

  Theorem C100_text e s fuel : uses n e -> deep_enough n (chars (sr_str s)) <= fuel ->
    run fuel e s = OutOfFuel -> goes_round rules e (chars (sr_str s)).
  Proof.
    intros U F H. pose proof (text_same rules fuel e s (Slice 0 0 (chars (sr_str s))) eq_refl) as J. rewrite H in J.
    destruct (parse (parser_of N.eqb rules fuel e) (Slice 0 0 (chars (sr_str s)))) as [[]| | |] eqn:K; cbn in J; try contradiction.
    assert (OK : decides_eq N.eqb) by (intros x y; apply N.eqb_eq).
    now destruct (C100_depth N.eqb OK rules n fin e (Slice 0 0 (chars (sr_str s))) fuel U F K).
  Qed.
  Theorem C100_text_orderly null rank e s : orderly rules null rank n -> uses n e -> repeats_something null e = true ->
    forall fuel, deep_enough n (chars (sr_str s)) <= fuel ->
    run fuel e s = Panic \/ exists o, outcome_on later_str (fun s => chars (sr_str s)) s (run fuel e s) o /\ peg rules e (chars (sr_str s)) o.
  Proof.
    intros O0 U R fuel F. destruct (text_outcome rules fuel e s) as [H|[H|H]]; auto.
    apply C100_text in H; auto. now apply (orderly_not_round rules n null rank fin O0) in H.
  Qed.
End Text.

(** ** Cases *)

(** Sums with brackets: 0 = 1 ('+' 1)*, 1 = '(' 0 ')' / 'x'; [1] for plus, [2]
    and [3] for the brackets, [4] for x. *)
Definition sums (i : nat) : gexp nat :=
  match i with
  | 0 => GJoin (GRef 1) (GRep (GJoin (GThe 1) (GRef 1)))
  | _ => GOr (GJoin (GThe 2) (GJoin (GRef 0) (GThe 3))) (GThe 4)
  end.
Lemma nat_ok : decides_eq Nat.eqb.
Proof. intros x y. apply Nat.eqb_eq. Qed.
Example C100_case_orderly (s : slice nat) :
  exists o, peg sums (GRef 0) (sl_data s) o /\
    forall fuel, 2 * S (length (sl_data s)) + length (sl_data s) + 2 <= fuel -> has_outcome s (parse (parser_of Nat.eqb sums fuel (GRef 0)) s) o.
Proof.
  apply (C100_orderly Nat.eqb nat_ok sums 2) with (null := fun _ => false) (rank := fun i => match i with 0 => 1 | _ => 0 end); cbn; auto.
  - intros [|[|i]] H; cbn; repeat split; lia.
  - intros [|[|i]] H; cbn; repeat split; try lia; discriminate.
Qed.
Example C100_case_value :
  parse (parser_of Nat.eqb sums 20 (GRef 0)) (Slice 5 1 [2; 4; 1; 4; 3; 1; 4; 9]) =
  Ret (Ok (TPair (TFirst (TPair TUnit (TPair (TPair (TLast TUnit) (TMany [TPair TUnit (TLast TUnit)])) TUnit)))
                 (TMany [TPair TUnit (TLast TUnit)])) (Slice 5 8 [9])).
Proof. vm_compute. reflexivity. Qed.

(** The left-recursive sum, 0 = 0 '+' 'x' / 'x', goes round on every text. *)
Definition left_sums (i : nat) : gexp nat := GOr (GJoin (GRef 0) (GJoin (GThe 1) (GThe 4))) (GThe 4).
Lemma left_round l : goes_round left_sums (GRef 0) l.
Proof.
  exists (GRef 0, l). split; [constructor|]. eapply t_trans; [apply t_step, nd_ref|].
  eapply t_trans; [apply t_step, nd_or|]. apply t_step, nd_join.
Qed.
Example C100_case_left_recursion fuel s : parse (parser_of Nat.eqb left_sums fuel (GRef 0)) s = OutOfFuel.
Proof.
  apply (C100_never_iff Nat.eqb nat_ok left_sums 1); [|cbn; lia|apply left_round].
  intros i _. cbn. repeat split; lia.
Qed.
(** On some texts only: 0 = 'x' / 0. *)
Definition sometimes (i : nat) : gexp nat := GOr (GThe 4) (GRef 0).
Example C100_case_sometimes (l : list nat) : goes_round sometimes (GRef 0) l <-> hd_error l <> Some 4.
Proof.
  assert (A : forall l, hd_error l = Some 4 -> peg sometimes (GRef 0) l (PSucc (TFirst TUnit) (tl l))).
  { intros [|x t] H; [discriminate|]. injection H as ->. constructor. cbn. constructor. constructor. }
  split.
  - intros R H. exact (answered_not_round sometimes _ _ _ (A l H) R).
  - intros H. exists (GRef 0, l). split; [constructor|]. eapply t_trans; [apply t_step, nd_ref|]. apply t_step, nd_or_next.
    apply pg_the_not. intros l' ->. now apply H.
Qed.
(** Repeating an option. *)
Example C100_case_repeat (rules : nat -> gexp nat) : goes_round rules (GRep (GOpt (GThe 4))) [4; 7].
Proof.
  exists (GRep (GOpt (GThe 4)), [7]). split.
  - econstructor; [eapply nd_rep_next, pg_opt_some, pg_the|constructor].
  - apply t_step. eapply nd_rep_next, pg_opt_none, pg_the_not. discriminate.
Qed.

Print Assumptions C100_answered_iff.
Print Assumptions C100_never_iff.
Print Assumptions C100_depth.
Print Assumptions C100_orderly.
Print Assumptions C100_text.
Print Assumptions C100_text_orderly.
