(** * P_Cache: the expression grammar of example/src/cache.rs, property C77. *)
From Verif Require Import L_Example2.
From Verif Require Import L_Cache.

Section Properties.
  (** Any text sequence that can be rewound, cut into segments in any way,
      empty ones included. *)
  Context {S A : Type} {SQ : Sequence S str} {RS : RewindSequence S A} {reach : S -> S -> Prop}.
  Context (LP : lawful_positions reach).
  Context (usize_max : nat) (overflow_checks : bool) (budget depth : nat) (big : 1 < usize_max).
  Notation expr := (expr_parse usize_max overflow_checks budget depth).
  (** Budgets that are never exhausted. *)
  Notation within s := (length (text s) < budget /\ length (text s) < depth).

  (** C77: what is written comes back, and exactly its text is consumed. *)
  Theorem C77_round_trip (s : S) e cs rest : within s ->
    text s = cs ++ rest -> writes e cs -> closed rest ->
    exists s', expr s = Ret (Ok e s') /\ text s' = rest /\ reach s s'.
  Proof.
    intros [L1 L2] T W C.
    assert (length cs < depth) as L by (rewrite T, app_length in L2; unfold char in *; lia).
    exact (expr_complete LP usize_max overflow_checks budget big depth s e cs rest T W C L L1).
  Qed.

  (** Only texts of expressions are accepted, with the expression they write. *)
  Theorem C77_only_expressions (s : S) e s' : within s -> expr s = Ret (Ok e s') ->
    exists cs, text s = cs ++ text s' /\ writes e cs.
  Proof. intros [L1 L2]. exact (expr_sound LP usize_max overflow_checks budget big depth s e s' L1). Qed.

  (** No expression that starts here reaches further. *)
  Theorem C77_longest (s : S) e s' e' cs' rest' : within s -> expr s = Ret (Ok e s') ->
    text s = cs' ++ rest' -> writes e' cs' -> length (text s') <= length rest'.
  Proof.
    intros [L1 L2]. exact (expr_longest LP usize_max overflow_checks budget big depth s e s' e' cs' rest' L2 L1).
  Qed.

  (** It panics on the texts that break it, and of the others it accepts those
      that start with an expression. *)
  Theorem C77_exact (s : S) : within s ->
    (expr s = Panic <-> breaks (text s)) /\
    ((exists e s', expr s = Ret (Ok e s')) <-> ~ breaks (text s) /\ starts_expression (text s)) /\
    ((exists m s', expr s = Ret (Err m s')) <-> ~ breaks (text s) /\ ~ starts_expression (text s)).
  Proof. intros [L1 L2]. exact (expr_exact LP usize_max overflow_checks budget big depth s L2 L1). Qed.

  (** Every input of the example is accepted as a whole, at any depth. *)
  Theorem C77_nested (s : S) n : 2 * n + 1 < budget -> 2 * n + 1 < depth -> text s = nested_text n ->
    exists s', expr s = Ret (Ok (nested n) s') /\ text s' = [].
  Proof.
    intros L1 L2 T. assert (length (nested_text n) = 2 * n + 1) as L.
    { unfold nested_text. rewrite !app_length, !repeat_length. cbn. lia. }
    destruct (C77_round_trip s (nested n) (nested_text n) []) as (s' & P & T' & _).
    - rewrite T. unfold char in *. lia.
    - now rewrite app_nil_r.
    - apply nested_writes.
    - exact I.
    - eauto.
  Qed.
End Properties.

(** The texts of two different expressions differ. *)
Theorem C77_unambiguous e1 e2 cs : writes e1 cs -> writes e2 cs -> e1 = e2.
Proof.
  intros W1 W2. set (s := StrRef 0 0 (Str cs) : strref).
  assert (text s = cs ++ []) as T by (cbn; now rewrite !app_nil_r).
  set (b := Datatypes.S (length (text s))).
  destruct (C77_round_trip str_positions 3 true b b ltac:(lia) s e1 cs [] ltac:(unfold b; lia) T W1 I) as (s1 & P1 & _).
  destruct (C77_round_trip str_positions 3 true b b ltac:(lia) s e2 cs [] ltac:(unfold b; lia) T W2 I) as (s2 & P2 & _).
  congruence.
Qed.

(** The same text gives the same expression and leaves the same text, or is
    refused, or panics, however it is cut. *)
Theorem C77_segmentation {S A S' A'} {SQ : Sequence S str} {RS : RewindSequence S A} {reach : S -> S -> Prop}
  {SQ' : Sequence S' str} {RS' : RewindSequence S' A'} {reach' : S' -> S' -> Prop}
  usize_max overflow_checks budget depth (s : S) (s' : S') :
  lawful_positions reach -> lawful_positions reach' ->
  1 < usize_max -> length (text s) < budget -> length (text s) < depth -> text s = text s' ->
  (forall e r, expr_parse usize_max overflow_checks budget depth s = Ret (Ok e r) ->
     exists r', expr_parse usize_max overflow_checks budget depth s' = Ret (Ok e r') /\ text r' = text r) /\
  (forall m r, expr_parse usize_max overflow_checks budget depth s = Ret (Err m r) ->
     exists r', expr_parse usize_max overflow_checks budget depth s' = Ret (Err m r')) /\
  (expr_parse usize_max overflow_checks budget depth s = Panic ->
     expr_parse usize_max overflow_checks budget depth s' = Panic).
Proof.
  intros LP LP' B L1 L2 T.
  assert (length (text s') < budget /\ length (text s') < depth) as Wi by (rewrite <- T; auto).
  destruct (C77_exact LP usize_max overflow_checks budget depth B s (conj L1 L2)) as (P1 & O1 & E1).
  destruct (C77_exact LP' usize_max overflow_checks budget depth B s' Wi) as (P2 & O2 & E2).
  rewrite <- T in P2, O2, E2. split; [|split].
  - intros e r P. destruct (proj2 O2) as (e' & r' & P'); [apply O1; eauto|].
    destruct (C77_only_expressions LP _ _ _ _ B s e r (conj L1 L2) P) as (cs & T1 & W1).
    destruct (C77_only_expressions LP' _ _ _ _ B s' e' r' Wi P') as (cs' & T1' & W1').
    pose proof (C77_longest LP _ _ _ _ B s e r e' cs' (text r') (conj L1 L2) P (eq_trans T T1') W1') as Le1.
    pose proof (C77_longest LP' _ _ _ _ B s' e' r' e cs (text r) Wi P' (eq_trans (eq_sym T) T1) W1) as Le2.
    rewrite <- T, T1 in T1'.
    assert (length cs = length cs') as Lc.
    { apply (f_equal (@length _)) in T1'. rewrite !app_length in T1'. unfold char in *. lia. }
    assert (cs = cs' /\ text r = text r') as [<- Tr].
    { clear - Lc T1'. revert cs' Lc T1'. induction cs as [|c cs IH]; intros [|c' cs'] L E; cbn in *; try discriminate; auto.
      injection E as -> E. destruct (IH cs') as [-> ->]; auto. }
    rewrite (C77_unambiguous e e' cs W1 W1'). exists r'. auto.
  - intros [[]] r P. destruct (proj2 E2) as ([[]] & r' & P'); [apply E1; eauto|]. eauto.
  - intros P. apply P2, P1, P.
Qed.

(** ** Cases *)
Lemma one_space : spaces [32%N].
Proof. split; [discriminate|repeat constructor]. Qed.

(** "0 + 0 * (0 - 0)" *)
Definition sample : Expr :=
  BinOp (ETerm Zero) Add
    (BinOp (ETerm Zero) Mul (ETerm (Parenthesized (BinOp (ETerm Zero) Sub (ETerm Zero))))).
Definition sample_text : list char := [48; 32; 43; 32; 48; 32; 42; 32; 40; 48; 32; 45; 32; 48; 41]%N.
Example C77_case : writes sample sample_text.
Proof.
  refine (w_bin _ Add _ [48%N] _ [32%N] [32%N] w_zero _ one_space one_space _ _); [|cbn; lia|cbn; lia].
  refine (w_bin _ Mul _ [48%N] [40; 48; 32; 45; 32; 48; 41]%N [32%N] [32%N] w_zero _ one_space one_space _ _); [|cbn; lia|cbn; lia].
  refine (w_paren _ [48; 32; 45; 32; 48]%N _).
  refine (w_bin _ Sub _ [48%N] [48%N] [32%N] [32%N] w_zero w_zero one_space one_space _ _); cbn; lia.
Qed.
Example C77_case_run :
  expr_parse 99 true 30 30 (StrRef 1 0 (Str (sample_text ++ [59]%N))) = Ret (Ok sample (StrRef 1 15 (Str [59%N]))).
Proof. reflexivity. Qed.
Example C77_case_nested :
  nested_text 2 = [40; 40; 48; 41; 41]%N /\
  expr_parse 99 true 30 30 (StrRef 1 0 (Str (nested_text 2)))
  = Ret (Ok (ETerm (Parenthesized (ETerm (Parenthesized (ETerm Zero))))) (StrRef 1 5 (Str []))).
Proof. split; reflexivity. Qed.
(** "(0é" breaks it. *)
Example C77_case_breaks : breaks [40; 48; 233]%N /\ expr_parse 99 true 9 9 (StrRef 1 0 (Str [40; 48; 233]%N)) = Panic.
Proof. split; [|reflexivity]. apply b_term. apply (tb_close (ETerm Zero) [48%N]); [constructor|lia]. Qed.
(** "0 0" is "0" and a rest; ")" is refused. *)
Example C77_case_stop :
  expr_parse 99 true 9 9 (StrRef 1 0 (Str [48; 32; 48]%N)) = Ret (Ok (ETerm Zero) (StrRef 1 1 (Str [32; 48]%N))) /\
  exists r, expr_parse 99 true 9 9 (StrRef 1 0 (Str [41]%N)) = Ret (Err (MkMiss tt) r).
Proof. split; [reflexivity|eexists; reflexivity]. Qed.
(** Empty pieces do no harm. *)
Example C77_case_pieces : lawful_positions (S := pieces) (fun _ _ => True) /\
  exists r, expr_parse 99 true 9 9 (Pieces [[]; [40]; []; [48; 41]]%N) = Ret (Ok (nested 1) r).
Proof. split; [exact pieces_positions|eexists; reflexivity]. Qed.

Print Assumptions C77_round_trip.
Print Assumptions C77_only_expressions.
Print Assumptions C77_longest.
Print Assumptions C77_exact.
Print Assumptions C77_nested.
Print Assumptions C77_unambiguous.
Print Assumptions C77_segmentation.
