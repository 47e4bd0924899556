(** * P_Eval: the values the example computes, property C78. *)
From Coq Require Import Lia.
From Verif Require Import L_Eval P_Example.

(** With overflow checks the answer is the value in the integers, and there is
    one exactly when every intermediate result is a [usize]. *)
Theorem C78_checked max e n : fits max e ->
  (eval max true e = Ret n <-> representable max e /\ denotes e (Z.of_nat n)).
Proof.
  intros F. destruct (eval_checked max e F) as [(m & E & R & D & B)|(E & R)]; rewrite E.
  - split.
    + intros Q. injection Q as <-. auto.
    + intros (_ & D'). f_equal. apply Nat2Z.inj. eapply denotes_unique; eauto.
  - split; [discriminate|]. intros (R' & _). contradiction.
Qed.

Theorem C78_checked_panics max e : fits max e -> (eval max true e = Panic <-> ~ representable max e).
Proof.
  intros F. destruct (eval_checked max e F) as [(m & E & R & D & B)|(E & R)]; rewrite E.
  - split; [discriminate|]. intros N. contradiction.
  - tauto.
Qed.

(** Without them it is the value with each result reduced modulo [max + 1];
    there is none exactly when a divisor comes out as zero. *)
Theorem C78_wrapping max e n : fits max e ->
  (eval max false e = Ret n <-> residue max e (Z.of_nat n)).
Proof.
  intros F. destruct (eval_wrapping max e F) as [(m & E & R & B)|(E & R)]; rewrite E.
  - split.
    + intros Q. injection Q as <-. auto.
    + intros D'. f_equal. apply Nat2Z.inj. eapply residue_unique; eauto.
  - split; [discriminate|]. intros R'. edestruct R; eauto.
Qed.

Theorem C78_wrapping_panics max e : fits max e ->
  (eval max false e = Panic <-> forall z, ~ residue max e z).
Proof.
  intros F. destruct (eval_wrapping max e F) as [(m & E & R & B)|(E & R)]; rewrite E.
  - split; [discriminate|]. intros N. edestruct N; eauto.
  - tauto.
Qed.

(** Without division that is the value in the integers modulo [max + 1], and
    there always is one. *)
Theorem C78_wrapping_exact max e : fits max e -> no_division e ->
  exists z, denotes e z /\ eval max false e = Ret (Z.to_nat (z mod (Z.of_nat max + 1))).
Proof.
  intros F N. destruct (residue_no_division max e F N) as (z & D & R). exists z. split; [auto|].
  apply C78_wrapping; [auto|]. rewrite Z2Nat.id; [auto|]. apply Z.mod_pos_bound. lia.
Qed.

(** When every intermediate result is a [usize] the two agree. *)
Theorem C78_agree max e : fits max e -> representable max e -> eval max false e = eval max true e.
Proof.
  intros F R. destruct (eval_checked max e F) as [(m & E & _ & D & B)|(E & Q)]; [|contradiction].
  rewrite E. apply C78_wrapping; [auto|]. now apply residue_representable.
Qed.

(** The result is a [usize]. *)
Theorem C78_bounded max checks e n : fits max e -> eval max checks e = Ret n -> n <= max.
Proof.
  intros F E. destruct checks.
  - destruct (eval_checked max e F) as [(m & E' & _ & D & B)|(E' & Q)]; congruence.
  - destruct (eval_wrapping max e F) as [(m & E' & _ & B)|(E' & Q)]; congruence.
Qed.

Section Main.
  Context {S A : Type} {SQ : Sequence S str} {RS : RewindSequence S A} {reach : S -> S -> Prop}.
  Context (LP : lawful_positions reach).
  Context (usize_max : nat) (overflow_checks : bool) (budget depth : nat) (big : 2 < usize_max).

  (** From text to number: a text that writes an expression with a value gives
      that value, whatever follows it. *)
  Theorem C78_main (s : S) e cs rest n :
    (forall s : S, no_gaps s) -> length (text s) < budget -> length (text s) < depth ->
    text s = cs ++ rest -> writes e cs -> closed rest ->
    representable usize_max e -> denotes e (Z.of_nat n) ->
    exists s', main_run decimal usize_max overflow_checks budget depth s = Ret (Some (s', display decimal e, n))
      /\ text s' = rest.
  Proof.
    intros NG L1 L2 T W C R D.
    assert (F : fits usize_max e).
    { clear - R. induction e as [m|e IH|l o r IHl IHr] using expr_ind'; cbn.
      - destruct (R _ (part_self _)) as (z & D & B). inversion D; subst. lia.
      - apply IH. now apply rep_paren.
      - split; [apply IHl; eapply rep_left; eauto|apply IHr; eapply rep_right; eauto]. }
    destruct (C62_round_trip LP usize_max overflow_checks budget depth big s e cs rest NG (conj L1 L2) T W C F) as (s' & P & T' & _).
    exists s'. split; [|auto]. unfold main_run. rewrite P. cbn [bind].
    assert (E : eval usize_max true e = Ret n) by (apply C78_checked; auto).
    destruct overflow_checks; [|rewrite C78_agree by auto]; now rewrite E.
  Qed.

  (** Conversely a number that comes out is that of an expression written there. *)
  Theorem C78_main_only (s s' : S) t n :
    length (text s) < budget -> length (text s) < depth ->
    main_run decimal usize_max overflow_checks budget depth s = Ret (Some (s', t, n)) ->
    exists e cs, text s = cs ++ text s' /\ writes e cs /\ t = display decimal e /\ n <= usize_max /\
      (if overflow_checks then representable usize_max e /\ denotes e (Z.of_nat n)
       else residue usize_max e (Z.of_nat n)).
  Proof.
    intros L1 L2 M. unfold main_run in M.
    destruct (expr_parse usize_max overflow_checks budget depth s) as [[e r|m r]| | |] eqn:P; cbn [bind] in M; try discriminate.
    destruct (eval usize_max overflow_checks e) as [v| | |] eqn:E; cbn [bind] in M; try discriminate.
    injection M as <- <- <-.
    destruct (C62_only_expressions LP usize_max overflow_checks budget depth big s e r (conj L1 L2) P) as (cs & T & W & F).
    exists e, cs. repeat (split; [solve [auto]|]). split; [eapply C78_bounded; eauto|].
    destruct overflow_checks; [now apply C78_checked|now apply C78_wrapping].
  Qed.
End Main.

(** ** Cases *)
(** 1 + 2 * (6 + 4) / 5, as in the example; 2 - 3 overflows or wraps; 7 / 2. *)
Example C78_case :
  eval 99 true sample = Ret 5 /\ eval 99 false sample = Ret 5 /\
  eval 99 true (BinOp (ETerm (Integer 2)) Sub (ETerm (Integer 3))) = Panic /\
  eval 99 false (BinOp (ETerm (Integer 2)) Sub (ETerm (Integer 3))) = Ret 99 /\
  eval 99 true (BinOp (ETerm (Integer 7)) Div (ETerm (Integer 2))) = Ret 3 /\
  eval 99 false (BinOp (ETerm (Integer 20)) Mul (ETerm (Integer 6))) = Ret 20 /\
  eval 99 false (BinOp (ETerm (Integer 1)) Div (ETerm (Integer 0))) = Panic.
Proof. repeat split. Qed.

Example C78_case_representable :
  fits 99 sample /\ representable 99 sample /\ denotes sample 5 /\
  ~ representable 99 (BinOp (ETerm (Integer 2)) Sub (ETerm (Integer 3))).
Proof.
  assert (F : fits 99 sample) by (cbn; lia).
  split; [exact F|]. destruct (proj1 (C78_checked 99 sample 5 F) eq_refl) as (R & D). split; [exact R|]. split; [exact D|].
  apply C78_checked_panics; [cbn; lia|reflexivity].
Qed.

Example C78_case_main :
  exists r, main_run decimal 99 true 30 30 (StrRef 1 0 (Str [49; 32; 43; 32; 50; 32; 42; 32; 40; 54; 32; 43; 32; 52; 41; 32; 47; 32; 53]%N))
  = Ret (Some (r, display decimal sample, 5)) /\ text r = [].
Proof. exists (StrRef 1 19 (Str [])). split; [vm_compute|]; reflexivity. Qed.

Print Assumptions C78_checked.
Print Assumptions C78_checked_panics.
Print Assumptions C78_wrapping.
Print Assumptions C78_wrapping_panics.
Print Assumptions C78_wrapping_exact.
Print Assumptions C78_agree.
Print Assumptions C78_bounded.
Print Assumptions C78_main.
Print Assumptions C78_main_only.
