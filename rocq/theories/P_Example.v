(** * P_Example: the expression grammar of the example, properties C62, C65-C67. *)
From Verif Require Import L_Example L_Example2 L_Example3.

Section Properties.
  (** Any text sequence that can be rewound, cut into segments in any way
      without an empty one before text. *)
  Context {S A : Type} {SQ : Sequence S str} {RS : RewindSequence S A} {reach : S -> S -> Prop}.
  Context (LP : lawful_positions reach).
  Context (usize_max : nat) (overflow_checks : bool) (budget depth : nat) (big : 2 < usize_max).
  Notation expr := (expr_parse usize_max overflow_checks budget depth).
  (** Budgets that are never exhausted. *)
  Notation within s := (length (text s) < budget /\ length (text s) < depth).

  (** C62: what is written comes back, and exactly its text is consumed. *)
  Theorem C62_round_trip (s : S) e cs rest :
    (forall s : S, no_gaps s) -> within s ->
    text s = cs ++ rest -> writes e cs -> closed rest -> fits usize_max e ->
    exists s', expr s = Ret (Ok e s') /\ text s' = rest /\ reach s s'.
  Proof.
    intros NG [L1 L2] T W C F.
    assert (length cs < depth) as L by (rewrite T, app_length in L2; unfold char in *; lia).
    exact (proj1 (expr_complete LP usize_max overflow_checks budget big NG depth s e cs rest T W C L L1) F).
  Qed.

  (** Only texts of expressions are accepted, with the expression they write. *)
  Theorem C62_only_expressions (s : S) e s' : within s -> expr s = Ret (Ok e s') ->
    exists cs, text s = cs ++ text s' /\ writes e cs /\ fits usize_max e.
  Proof. intros [L1 L2]. exact (expr_sound LP usize_max overflow_checks budget big depth s e s' L1). Qed.

  (** No expression that starts here reaches further. *)
  Theorem C62_longest (s : S) e s' e' cs' rest' :
    (forall s : S, no_gaps s) -> within s -> expr s = Ret (Ok e s') ->
    text s = cs' ++ rest' -> writes e' cs' -> length (text s') <= length rest'.
  Proof.
    intros NG [L1 L2]. exact (expr_longest LP usize_max overflow_checks budget big NG depth s e s' e' cs' rest' L2 L1).
  Qed.

  (** C65: what [display] prints can be read, prints the same and has the same
      value. *)
  Theorem C65_display_round_trip (s : S) e rest :
    (forall s : S, no_gaps s) -> within s ->
    text s = display decimal e ++ rest -> closed rest -> fits usize_max e ->
    exists e' s', expr s = Ret (Ok e' s') /\ text s' = rest /\
      display decimal e' = display decimal e /\ eval usize_max overflow_checks e' = eval usize_max overflow_checks e.
  Proof.
    intros NG B T C F.
    destruct (C62_round_trip s (shown e) _ rest NG B T (shown_writes e) C (shown_fits _ e F)) as (s' & P & T' & _).
    exists (shown e), s'. split; auto. split; auto. split; [apply shown_display|apply shown_eval].
  Qed.

  (** C66: it always ends with an answer, unless there is a character outside
      ASCII or a numeral above [usize::MAX] in the text, where it may panic;
      it never runs into undefined behaviour. *)
  Theorem C66_answers_partial (s : S) : within s ->
    (exists r, expr s = Ret r) \/ (expr s = Panic /\ trouble usize_max (text s)).
  Proof. intros [L1 L2]. exact (expr_answers LP usize_max overflow_checks budget big depth s L2 L1). Qed.

  (** Exactly: it panics on the texts that break it, and of the others it
      accepts those that start with an expression. *)
  Theorem C66_exact_partial (s : S) : (forall s : S, no_gaps s) -> within s ->
    (expr s = Panic <-> breaks usize_max (text s)) /\
    ((exists e s', expr s = Ret (Ok e s')) <-> ~ breaks usize_max (text s) /\ starts_expression (text s)) /\
    ((exists m s', expr s = Ret (Err m s')) <-> ~ breaks usize_max (text s) /\ ~ starts_expression (text s)).
  Proof. intros NG [L1 L2]. exact (expr_exact LP usize_max overflow_checks budget big NG depth s L2 L1). Qed.

  (** An expression with a number above [usize::MAX] does panic. *)
  Theorem C66_large_number_panics (s : S) e cs rest :
    (forall s : S, no_gaps s) -> within s ->
    text s = cs ++ rest -> writes e cs -> closed rest -> ~ fits usize_max e -> expr s = Panic.
  Proof.
    intros NG [L1 L2] T W C F.
    assert (length cs < depth) as L by (rewrite T, app_length in L2; unfold char in *; lia).
    exact (proj2 (expr_complete LP usize_max overflow_checks budget big NG depth s e cs rest T W C L L1) F).
  Qed.
End Properties.

(** The texts of two different expressions differ. *)
Theorem C62_unambiguous e1 e2 cs : writes e1 cs -> writes e2 cs -> e1 = e2.
Proof. apply unambiguous. Qed.

(** A [&str] is such a sequence, and so is any text cut into non-empty pieces. *)
Theorem C62_str_instance : lawful_positions (S := strref) later_str /\ forall s : strref, no_gaps s.
Proof. split; [exact str_positions|exact str_no_gaps]. Qed.
Theorem C62_pieces_instance :
  lawful_positions (S := full_pieces) (fun _ _ => True) /\ forall s : full_pieces, no_gaps s.
Proof. split; [exact full_pieces_positions|exact full_pieces_no_gaps]. Qed.

(** C66 is false: on the text "é" the parser panics, within any budget. *)
Theorem C66_never_panics_refuted usize_max overflow_checks budget depth : 0 < depth ->
  exists s : strref, text s = [233%N] /\ expr_parse usize_max overflow_checks budget depth s = Panic.
Proof.
  intros L. destruct depth as [|depth]; [lia|]. exists (StrRef 1 0 (Str [233%N])). split; reflexivity.
Qed.

(** C67: the answer depends on how the text is cut.  "1" is not recognised
    after an empty segment. *)
Theorem C67_segmentation_refuted usize_max overflow_checks budget depth :
  2 < usize_max -> 2 < budget -> 2 < depth ->
  lawful_positions (S := pieces) (fun _ _ => True) /\
  exists s1 s2 : pieces, text s1 = text s2 /\
    (exists s', expr_parse usize_max overflow_checks budget depth s1 = Ret (Ok (ETerm (Integer 1)) s')) /\
    (exists s', expr_parse usize_max overflow_checks budget depth s2 = Ret (Err (MkMiss tt) s')).
Proof.
  intros B1 B2 B3. split; [exact pieces_positions|].
  exists (Pieces [[49%N]]), (Pieces [[]; [49%N]]). split; [reflexivity|].
  destruct depth as [|depth]; [lia|]. destruct budget as [|[|budget]]; try lia.
  destruct usize_max as [|[|usize_max]]; try lia. split; eexists; reflexivity.
Qed.

(** Without empty segments it does not: the same text gives the same
    expression and leaves the same text, or is refused, or panics. *)
Theorem C67_segmentation_partial {S A S' A'} {SQ : Sequence S str} {RS : RewindSequence S A} {reach : S -> S -> Prop}
  {SQ' : Sequence S' str} {RS' : RewindSequence S' A'} {reach' : S' -> S' -> Prop}
  usize_max overflow_checks budget depth (s : S) (s' : S') :
  lawful_positions reach -> lawful_positions reach' ->
  (forall s : S, no_gaps s) -> (forall s : S', no_gaps s) ->
  2 < usize_max -> length (text s) < budget -> length (text s) < depth -> text s = text s' ->
  (forall e r, expr_parse usize_max overflow_checks budget depth s = Ret (Ok e r) ->
     exists r', expr_parse usize_max overflow_checks budget depth s' = Ret (Ok e r') /\ text r' = text r) /\
  (forall m r, expr_parse usize_max overflow_checks budget depth s = Ret (Err m r) ->
     exists r', expr_parse usize_max overflow_checks budget depth s' = Ret (Err m r')) /\
  (expr_parse usize_max overflow_checks budget depth s = Panic ->
     expr_parse usize_max overflow_checks budget depth s' = Panic).
Proof.
  intros LP LP' NG NG' B L1 _ T.
  pose proof (expr_same LP LP' usize_max overflow_checks budget B NG NG' depth s s' T L1) as H.
  destruct (expr_parse usize_max overflow_checks budget depth s) as [[e r|[[]] r]| | |],
    (expr_parse usize_max overflow_checks budget depth s') as [[e' r'|[[]] r']| | |];
    cbn in H; try contradiction; (split; [|split]); try discriminate; auto.
  - intros e0 r0 [= <- <-]. destruct H as [-> H]. exists r'. auto.
  - intros m r0 [= <- <-]. eauto.
Qed.

(** ** "1 + 2 * (6 + 4) / 5", the input of the example *)
Definition sample : Expr :=
  BinOp (ETerm (Integer 1)) Add
    (BinOp (BinOp (ETerm (Integer 2)) Mul
              (ETerm (Parenthesized (BinOp (ETerm (Integer 6)) Add (ETerm (Integer 4))))))
       Div (ETerm (Integer 5))).
Definition sample_text : list char :=
  [49; 32; 43; 32; 50; 32; 42; 32; 40; 54; 32; 43; 32; 52; 41; 32; 47; 32; 53]%N.

Lemma one_digit c n : digit c -> N.to_nat c - 48 = n -> writes (ETerm (Integer n)) [c].
Proof. intros D <-. constructor. now constructor. Qed.
Lemma one_space : spaces [32%N].
Proof. split; [discriminate|repeat constructor]. Qed.

Example C62_case : writes sample sample_text.
Proof.
  assert (forall n, 48 <= n <= 57 -> digit (N.of_nat n)) as D by (intros n H; unfold digit; lia).
  unfold sample, sample_text.
  refine (w_bin _ Add _ [49%N] _ [32%N] [32%N] _ _ one_space one_space _ _); [now apply one_digit| |cbn; lia|cbn; lia].
  refine (w_bin _ Div _ [50; 32; 42; 32; 40; 54; 32; 43; 32; 52; 41]%N [53%N] [32%N] [32%N] _ _ one_space one_space _ _);
    [|now apply one_digit|cbn; lia|cbn; lia].
  refine (w_bin _ Mul _ [50%N] [40; 54; 32; 43; 32; 52; 41]%N [32%N] [32%N] _ _ one_space one_space _ _);
    [now apply one_digit| |cbn; lia|cbn; lia].
  refine (w_paren _ [54; 32; 43; 32; 52]%N _).
  refine (w_bin _ Add _ [54%N] [52%N] [32%N] [32%N] _ _ one_space one_space _ _);
    [now apply one_digit|now apply one_digit|cbn; lia|cbn; lia].
Qed.
Example C62_case_run :
  expr_parse 99 true 30 30 (StrRef 1 0 (Str (sample_text ++ [59]%N)))
  = Ret (Ok sample (StrRef 1 19 (Str [59%N]))).
Proof. reflexivity. Qed.
(** A pair that does not go on is left alone. *)
Example C62_case_stop :
  expr_parse 99 true 30 30 (StrRef 1 0 (Str [49; 32; 45; 32; 120]%N))
  = Ret (Ok (ETerm (Integer 1)) (StrRef 1 1 (Str [32; 45; 32; 120]%N))).
Proof. reflexivity. Qed.
Example C65_case :
  display decimal sample
  = [40; 49; 32; 43; 32; 40; 40; 50; 32; 42; 32; 40; 54; 32; 43; 32; 52; 41; 41; 32; 47; 32; 53; 41; 41]%N /\
  eval 99 true sample = Ret 5 /\ fits 99 sample.
Proof. cbn. repeat split; lia. Qed.
Example C66_case : expr_parse 99 true 9 9 (StrRef 1 0 (Str [49; 48; 48]%N)) = Panic.
Proof. reflexivity. Qed.
(** "(1é" and "1 + é" break it; "(1 é" does not. *)
Example C66_case_breaks :
  breaks 99 [40; 49; 233]%N /\ breaks 99 [49; 32; 43; 32; 233]%N /\
  expr_parse 99 true 9 9 (StrRef 1 0 (Str [40; 49; 233]%N)) = Panic /\
  exists r, expr_parse 99 true 9 9 (StrRef 1 0 (Str [40; 49; 32; 233]%N)) = Ret (Err (MkMiss tt) r).
Proof.
  split; [|split; [|split; [reflexivity|eexists; reflexivity]]].
  - apply b_term. apply (tb_close 99 (ETerm (Integer 1)) [49%N]); [|lia]. apply one_digit; [split; lia|reflexivity].
  - apply (b_after 99 (Integer 1) [49%N] [32%N] Add [32%N] [233%N]); try exact one_space.
    + apply one_digit; [split; lia|reflexivity].
    + apply b_term, tb_wide. lia.
Qed.
Example C67_case_panic :
  expr_parse 99 true 9 9 (FullPieces [(49, [32; 43]); (32, [233])]%N) = Panic /\
  expr_parse 99 true 9 9 (StrRef 1 0 (Str [49; 32; 43; 32; 233]%N)) = Panic.
Proof. split; reflexivity. Qed.
Example C67_case :
  exists r, expr_parse 99 true 9 9 (FullPieces [(49, []); (50, [32]); (43, []); (32, [53])]%N)
  = Ret (Ok (BinOp (ETerm (Integer 12)) Add (ETerm (Integer 5))) r).
Proof. eexists. reflexivity. Qed.

Print Assumptions C62_round_trip.
Print Assumptions C62_only_expressions.
Print Assumptions C62_longest.
Print Assumptions C62_unambiguous.
Print Assumptions C62_str_instance.
Print Assumptions C62_pieces_instance.
Print Assumptions C65_display_round_trip.
Print Assumptions C66_answers_partial.
Print Assumptions C66_exact_partial.
Print Assumptions C66_large_number_panics.
Print Assumptions C66_never_panics_refuted.
Print Assumptions C67_segmentation_refuted.
Print Assumptions C67_segmentation_partial.
