(** * P_TestExpr: the expression grammar of the tests of bin_expr.rs, property C89. *)
From Verif Require Import L_Example2.
From Verif Require Import L_TestExpr.

Section Properties.
  (** Any text sequence that can be rewound, cut into segments in any way,
      empty ones included. *)
  Context {S A : Type} {SQ : Sequence S str} {RS : RewindSequence S A} {reach : S -> S -> Prop}.
  Context (LP : lawful_positions reach).
  Context (usize_max : nat) (overflow_checks : bool) (budget depth : nat) (big : 2 < usize_max).
  Notation expr := (expr_parse usize_max overflow_checks budget depth).
  (** Budgets that are never exhausted. *)
  Notation within s := (length (text s) < budget /\ length (text s) < depth).

  (** C89: what is written comes back, and exactly its text is consumed. *)
  Theorem C89_round_trip (s : S) e cs rest : within s ->
    text s = cs ++ rest -> writes e cs -> closed rest ->
    exists s', expr s = Ret (Ok e s') /\ text s' = rest /\ reach s s'.
  Proof.
    intros [L1 L2] T W C.
    assert (length cs < depth) as L by (rewrite T, app_length in L2; unfold char in *; lia).
    exact (expr_complete LP usize_max overflow_checks budget big depth s e cs rest T W C L L1).
  Qed.

  (** Only texts of expressions are accepted, with the expression they write. *)
  Theorem C89_only_expressions (s : S) e s' : within s -> expr s = Ret (Ok e s') ->
    exists cs, text s = cs ++ text s' /\ writes e cs.
  Proof. intros [L1 L2]. exact (expr_sound LP usize_max overflow_checks budget big depth s e s' L1). Qed.

  (** No expression that starts here reaches further. *)
  Theorem C89_longest (s : S) e s' e' cs' rest' : within s -> expr s = Ret (Ok e s') ->
    text s = cs' ++ rest' -> writes e' cs' -> length (text s') <= length rest'.
  Proof.
    intros [L1 L2]. exact (expr_longest LP usize_max overflow_checks budget big depth s e s' e' cs' rest' L2 L1).
  Qed.

  (** It panics on the texts that break it, and of the others it accepts those
      that start with an expression. *)
  Theorem C89_exact (s : S) : within s ->
    (expr s = Panic <-> breaks (text s)) /\
    ((exists e s', expr s = Ret (Ok e s')) <-> ~ breaks (text s) /\ starts_expression (text s)) /\
    ((exists m s', expr s = Ret (Err m s')) <-> ~ breaks (text s) /\ ~ starts_expression (text s)).
  Proof. intros [L1 L2]. exact (expr_exact LP usize_max overflow_checks budget big depth s L2 L1). Qed.

  (** An operator that no term follows is given back with the spaces around it. *)
  Theorem C89_gives_back (s : S) e cs sp o sp' rest : within s ->
    text s = cs ++ sp ++ [symbol o] ++ sp' ++ rest ->
    writes e cs -> spaces sp -> spaces sp' -> no_term rest ->
    exists s', expr s = Ret (Ok e s') /\ text s' = sp ++ [symbol o] ++ sp' ++ rest /\ reach s s'.
  Proof.
    intros [L1 L2] T W S1 S2 N.
    assert (length cs < depth) as L by (rewrite T, app_length in L2; unfold char in *; lia).
    exact (expr_gives_back LP usize_max overflow_checks budget big depth s e cs sp o sp' rest T W S1 S2 N L L1).
  Qed.

  (** The first test, for chains of every length: no characters are left, and
      the operators group to the right. *)
  Theorem C89_no_chars_left (s : S) n : within s -> text s = chained_text n ->
    exists s', expr s = Ret (Ok (chained n) s') /\ text s' = [].
  Proof.
    intros L T. destruct (C89_round_trip s (chained n) (chained_text n) []) as (s' & P & T' & _); auto.
    - now rewrite app_nil_r.
    - apply chained_writes.
    - exact I.
    - eauto.
  Qed.

  (** The second test, for chains of every length: " ~ @@@" is left. *)
  Theorem C89_chars_left (s : S) n : within s -> text s = chained_text n ++ [32; 126; 32; 64; 64; 64]%N ->
    exists s', expr s = Ret (Ok (chained n) s') /\ text s' = [32; 126; 32; 64; 64; 64]%N.
  Proof.
    intros L T.
    assert (spaces [32%N]) as Sp by (split; [discriminate|repeat constructor]).
    assert (no_term [64; 64; 64]%N) as N by (repeat split; (discriminate || reflexivity)).
    destruct (C89_gives_back s (chained n) (chained_text n) [32%N] Til [32%N] [64; 64; 64]%N L T
                (chained_writes n) Sp Sp N) as (s' & P & T' & _).
    eauto.
  Qed.
End Properties.

(** The texts of two different expressions differ. *)
Theorem C89_unambiguous e1 e2 cs : writes e1 cs -> writes e2 cs -> e1 = e2.
Proof.
  intros W1 W2. set (s := StrRef 0 0 (Str cs) : strref).
  assert (text s = cs ++ []) as T by (cbn; now rewrite !app_nil_r).
  set (b := Datatypes.S (length (text s))).
  destruct (C89_round_trip str_positions 3 true b b ltac:(lia) s e1 cs [] ltac:(unfold b; lia) T W1 I) as (s1 & P1 & _).
  destruct (C89_round_trip str_positions 3 true b b ltac:(lia) s e2 cs [] ltac:(unfold b; lia) T W2 I) as (s2 & P2 & _).
  congruence.
Qed.

(** The same text gives the same expression and leaves the same text, or is
    refused, or panics, however it is cut. *)
Theorem C89_segmentation {S A S' A'} {SQ : Sequence S str} {RS : RewindSequence S A} {reach : S -> S -> Prop}
  {SQ' : Sequence S' str} {RS' : RewindSequence S' A'} {reach' : S' -> S' -> Prop}
  usize_max overflow_checks budget depth (s : S) (s' : S') :
  lawful_positions reach -> lawful_positions reach' ->
  2 < usize_max -> length (text s) < budget -> length (text s) < depth -> text s = text s' ->
  (forall e r, expr_parse usize_max overflow_checks budget depth s = Ret (Ok e r) ->
     exists r', expr_parse usize_max overflow_checks budget depth s' = Ret (Ok e r') /\ text r' = text r) /\
  (forall m r, expr_parse usize_max overflow_checks budget depth s = Ret (Err m r) ->
     exists r', expr_parse usize_max overflow_checks budget depth s' = Ret (Err m r')) /\
  (expr_parse usize_max overflow_checks budget depth s = Panic ->
     expr_parse usize_max overflow_checks budget depth s' = Panic).
Proof.
  intros LP LP' B L1 L2 T.
  assert (length (text s') < budget /\ length (text s') < depth) as Wi by (rewrite <- T; auto).
  destruct (C89_exact LP usize_max overflow_checks budget depth B s (conj L1 L2)) as (P1 & O1 & E1).
  destruct (C89_exact LP' usize_max overflow_checks budget depth B s' Wi) as (P2 & O2 & E2).
  rewrite <- T in P2, O2, E2. split; [|split].
  - intros e r P. destruct (proj2 O2) as (e' & r' & P'); [apply O1; eauto|].
    destruct (C89_only_expressions LP _ _ _ _ B s e r (conj L1 L2) P) as (cs & T1 & W1).
    destruct (C89_only_expressions LP' _ _ _ _ B s' e' r' Wi P') as (cs' & T1' & W1').
    pose proof (C89_longest LP _ _ _ _ B s e r e' cs' (text r') (conj L1 L2) P (eq_trans T T1') W1') as Le1.
    pose proof (C89_longest LP' _ _ _ _ B s' e' r' e cs (text r) Wi P' (eq_trans (eq_sym T) T1) W1) as Le2.
    rewrite <- T, T1 in T1'.
    assert (length cs = length cs') as Lc.
    { apply (f_equal (@length _)) in T1'. rewrite !app_length in T1'. unfold char in *. lia. }
    assert (cs = cs' /\ text r = text r') as [<- Tr].
    { clear - Lc T1'. revert cs' Lc T1'. induction cs as [|c cs IH]; intros [|c' cs'] L E; cbn in *; try discriminate; auto.
      injection E as -> E. destruct (IH cs') as [-> ->]; auto. }
    rewrite (C89_unambiguous e e' cs W1 W1'). exists r'. auto.
  - intros [[]] r P. destruct (proj2 E2) as ([[]] & r' & P'); [apply E1; eauto|]. eauto.
  - intros P. apply P2, P1, P.
Qed.

(** ** Cases *)
Lemma one_space : spaces [32%N].
Proof. split; [discriminate|repeat constructor]. Qed.

(** "0 ~ 0 - 0 - 0 * 0 ~ (0 ~ 0)": the subtractions group to the left, [~] to the right. *)
Definition zero_expr := ETerm Zero.
Definition sample : Expr :=
  BinOp zero_expr Til
    (BinOp (BinOp (BinOp zero_expr Sub zero_expr) Sub (BinOp zero_expr Mul zero_expr)) Til
       (ETerm (Parenthesized (BinOp zero_expr Til zero_expr)))).
Definition sample_text : list char :=
  [48; 32; 126; 32; 48; 32; 45; 32; 48; 32; 45; 32; 48; 32; 42; 32; 48; 32; 126; 32; 40; 48; 32; 126; 32; 48; 41]%N.
Example C89_case : writes sample sample_text.
Proof.
  refine (w_bin _ Til _ [48%N] _ [32%N] [32%N] w_zero _ one_space one_space _ _); [|cbn; lia|cbn; lia].
  refine (w_bin _ Til _ [48; 32; 45; 32; 48; 32; 45; 32; 48; 32; 42; 32; 48]%N [40; 48; 32; 126; 32; 48; 41]%N [32%N] [32%N] _ _ one_space one_space _ _); [| |cbn; lia|cbn; lia].
  - refine (w_bin _ Sub _ [48; 32; 45; 32; 48]%N [48; 32; 42; 32; 48]%N [32%N] [32%N] _ _ one_space one_space _ _); [| |cbn; lia|cbn; lia].
    + refine (w_bin _ Sub _ [48%N] [48%N] [32%N] [32%N] w_zero w_zero one_space one_space _ _); cbn; lia.
    + refine (w_bin _ Mul _ [48%N] [48%N] [32%N] [32%N] w_zero w_zero one_space one_space _ _); cbn; lia.
  - refine (w_paren _ [48; 32; 126; 32; 48]%N _).
    refine (w_bin _ Til _ [48%N] [48%N] [32%N] [32%N] w_zero w_zero one_space one_space _ _); cbn; lia.
Qed.
Example C89_case_run :
  expr_parse 99 true 40 40 (StrRef 1 0 (Str (sample_text ++ [59]%N))) = Ret (Ok sample (StrRef 1 27 (Str [59%N]))).
Proof. reflexivity. Qed.
(** The other grouping of "0 ~ 0 ~ 0" is not written that way. *)
Example C89_case_grouping :
  ~ writes (BinOp (BinOp zero_expr Til zero_expr) Til zero_expr) (chained_text 2).
Proof. intros W. pose proof (C89_unambiguous _ _ _ W (chained_writes 2)). discriminate. Qed.
Example C89_case_chained :
  expr_parse 99 true 40 40 (StrRef 1 0 (Str (chained_text 2 ++ [32; 126; 32; 64; 64; 64]%N)))
  = Ret (Ok (BinOp zero_expr Til (BinOp zero_expr Til zero_expr)) (StrRef 1 9 (Str [32; 126; 32; 64; 64; 64]%N))).
Proof. reflexivity. Qed.
(** "(0é" and "é" break it. *)
Example C89_case_breaks :
  breaks [40; 48; 233]%N /\ expr_parse 99 true 9 9 (StrRef 1 0 (Str [40; 48; 233]%N)) = Panic /\
  breaks [233]%N /\ expr_parse 99 true 9 9 (StrRef 1 0 (Str [233]%N)) = Panic.
Proof.
  repeat split.
  - apply b_term. apply (tb_close (ETerm Zero) [48%N]); [constructor|lia].
  - apply b_term. apply tb_wide. lia.
Qed.
(** "0 0" is "0" and a rest; ")" is refused. *)
Example C89_case_stop :
  expr_parse 99 true 9 9 (StrRef 1 0 (Str [48; 32; 48]%N)) = Ret (Ok (ETerm Zero) (StrRef 1 1 (Str [32; 48]%N))) /\
  exists r, expr_parse 99 true 9 9 (StrRef 1 0 (Str [41]%N)) = Ret (Err (MkMiss tt) r).
Proof. split; [reflexivity|eexists; reflexivity]. Qed.
(** Empty pieces do no harm. *)
Example C89_case_pieces : lawful_positions (S := pieces) (fun _ _ => True) /\
  exists r, expr_parse 99 true 9 9 (Pieces [[]; [48; 32]; []; [126; 32; 48]]%N) = Ret (Ok (chained 1) r).
Proof. split; [exact pieces_positions|eexists; reflexivity]. Qed.

Print Assumptions C89_round_trip.
Print Assumptions C89_only_expressions.
Print Assumptions C89_longest.
Print Assumptions C89_exact.
Print Assumptions C89_gives_back.
Print Assumptions C89_no_chars_left.
Print Assumptions C89_chars_left.
Print Assumptions C89_unambiguous.
Print Assumptions C89_segmentation.
