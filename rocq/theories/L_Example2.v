(** * L_Example2: the example grammar on two cuts of one text. *)
From Verif Require Export L_Example.

Local Arguments Nat.ltb : simpl never.
Local Arguments Nat.leb : simpl never.

Section Cuts.
  Context {S A : Type} {SQ : Sequence S str} {RS : RewindSequence S A} {reach : S -> S -> Prop}.
  Context {S' A' : Type} {SQ' : Sequence S' str} {RS' : RewindSequence S' A'} {reach' : S' -> S' -> Prop}.
  Context (LP : lawful_positions reach) (LP' : lawful_positions reach').
  Context (usize_max : nat) (overflow_checks : bool) (budget : nat) (big : 2 < usize_max).
  Context (NG : forall s : S, no_gaps s) (NG' : forall s : S', no_gaps s).

  (** The same answer, with the same text left. *)
  Definition same {X E} (c : comp (res S X E)) (c' : comp (res S' X E)) : Prop :=
    match c, c' with
    | Ret (Ok a r), Ret (Ok a' r') => a = a' /\ text r = text r'
    | Ret (Err _ _), Ret (Err _ _) => True
    | Panic, Panic | UB, UB | OutOfFuel, OutOfFuel => True
    | _, _ => False
    end.

  Lemma spaced_op_same (s : S) (s' : S') : text s = text s' -> length (text s) < budget ->
    same (parse (spaced_op budget) s) (parse (spaced_op budget) s').
  Proof.
    intros T L. assert (length (text s') < budget) as L' by (rewrite <- T; exact L).
    destruct (spaced_op_exact LP budget s L) as [K1 K2]. destruct (spaced_op_exact LP' budget s' L') as [K1' K2'].
    rewrite T in K1, K2. destruct (op_follows_dec (text s')) as [(o & rest & F)|F].
    - destruct (K1 o rest F) as (r & P & Tr & _). destruct (K1' o rest F) as (r' & P' & Tr' & _). rewrite P, P'. cbn.
      split; congruence.
    - destruct (K2 F) as (e & l & P & _). destruct (K2' F) as (e' & l' & P' & _). rewrite P, P'. exact I.
  Qed.

  Lemma integer_same (s : S) (s' : S') : text s = text s' ->
    same (integer_parse usize_max s) (integer_parse usize_max s').
  Proof.
    intros T.
    destruct (integer_exact LP usize_max s) as (ds & rest & T1 & F & G & H1 & H2).
    destruct (integer_exact LP' usize_max s') as (ds' & rest' & T1' & F' & G' & H1' & H2').
    destruct (digits_split_unique ds rest ds' rest') as [<- <-]; auto; [congruence|].
    destruct ds as [|d ds].
    - rewrite (H1 eq_refl), (H1' eq_refl). exact I.
    - destruct (numeral_exists (d :: ds) F) as [n N]; [discriminate|]. destruct (H2 n N) as [K1 K2].
      destruct (H2' n N) as [K1' K2']. destruct (le_lt_dec n usize_max) as [L|L].
      + destruct (K1 L) as (r & P & Tr & _). destruct (K1' L) as (r' & P' & Tr' & _). rewrite P, P'. cbn. split; congruence.
      + rewrite (K2 L), (K2' L). exact I.
  Qed.

  Lemma atom_same c (s : S) (s' : S') : len_utf8 c = 1 -> text s = text s' ->
    same (atom_parse (Str [c]) s) (atom_parse (Str [c]) s').
  Proof.
    intros Lc T. pose proof (atom_one LP c s Lc) as H. pose proof (atom_one LP' c s' Lc) as H'. rewrite T in H.
    destruct (text s') as [|d rest]; [rewrite H, H'; exact I|].
    destruct (d =? c)%N.
    - destruct H as (r & P & Tr & _). destruct H' as (r' & P' & Tr' & _). rewrite P, P'. cbn. split; auto. congruence.
    - rewrite H, H'. destruct (len_utf8 d =? 1); exact I.
  Qed.

  Lemma term_same (ex : pfun S Expr (Miss unit)) (ex' : pfun S' Expr (Miss unit)) :
    (forall s s', text s = text s' -> length (text s) < budget -> same (ex s) (ex' s')) ->
    forall s s', text s = text s' -> length (text s) < budget ->
    same (term_parse usize_max ex s) (term_parse usize_max ex' s').
  Proof.
    intros HE s s' T L. rewrite (term_parse_eq LP), (term_parse_eq LP').
    pose proof (integer_same s s' T) as H.
    destruct (integer_parse usize_max s) as [[n r|e r]| | |], (integer_parse usize_max s') as [[n' r'|e' r']| | |];
      cbn [same bind] in H |- *; try contradiction; try exact I.
    { destruct H as [<- H]. split; auto. }
    clear H. pose proof (atom_same 40%N s s' eq_refl T) as H.
    pose proof (fun r => atom_one_sound LP 40%N s r eq_refl) as Z.
    match type of H with same ?a ?b => set (c := a) in *; set (c' := b) in * end.
    match goal with |- same ?a ?b => match a with context [atom_parse ?x s] => change (atom_parse x s) with c end end.
    match goal with |- same ?a ?b => match b with context [atom_parse ?x s'] => change (atom_parse x s') with c' end end.
    clearbody c c'.
    destruct c as [[[] s1|e1 s1]| | |], c' as [[[] s1'|e1' s1']| | |];
      cbn [same bind] in H |- *; try contradiction; try exact I.
    destruct H as [_ T1]. destruct (Z _ eq_refl) as [T0 _].
    assert (length (text s1) < budget) as L1 by (rewrite T0 in L; cbn [length] in L; unfold char in *; lia).
    pose proof (HE s1 s1' T1 L1) as H.
    destruct (ex s1) as [[x s2|e2 s2]| | |], (ex' s1') as [[x' s2'|e2' s2']| | |];
      cbn [same bind] in H |- *; try contradiction; try exact I.
    destruct H as [<- T2]. pose proof (atom_same 41%N s2 s2' eq_refl T2) as H.
    match type of H with same ?a ?b => set (c := a) in *; set (c' := b) in * end.
    match goal with |- same ?a ?b => match a with context [atom_parse ?x s2] => change (atom_parse x s2) with c end end.
    match goal with |- same ?a ?b => match b with context [atom_parse ?x s2'] => change (atom_parse x s2') with c' end end.
    clearbody c c'.
    destruct c as [[[] s3|e3 s3]| | |], c' as [[[] s3'|e3' s3']| | |];
      cbn [same bind] in H |- *; try contradiction; try exact I.
    destruct H as [_ T3]. split; auto.
  Qed.

  Notation ex d := (expr_parse usize_max overflow_checks budget d).
  Notation tm d := (term_parse usize_max (ex d)).

  (** The operator loop, with [reach] back to the anchors. *)
  Lemma bin_loop_same d :
    (forall (s : S) (s' : S'), text s = text s' -> length (text s) < budget -> same (tm d s) (tm d s')) ->
    forall fuel stack rhs (s : S) (s' : S'), text s = text s' -> length (text s) < budget ->
    match bin_loop expr_from_term expr_from_bin usize_max overflow_checks fuel (closure (tm d)) (spaced_op budget) 0 stack rhs s,
          bin_loop expr_from_term expr_from_bin usize_max overflow_checks fuel (closure (tm d)) (spaced_op budget) 0 stack rhs s' with
    | Ret (Ok (a, RErr _) r), Ret (Ok (a', RErr _) r') => a = a' /\ text r = text r'
    | Ret (Err _ _), Ret (Err _ _) => True
    | Panic, Panic | UB, UB | OutOfFuel, OutOfFuel => True
    | _, _ => False
    end.
  Proof.
    intros HT. induction fuel as [|fuel IH]; intros stack rhs s s' T L; [exact I|].
    cbn [bin_loop]. pose proof (spaced_op_same s s' T L) as H.
    pose proof (spaced_op_forward LP budget s) as F1. pose proof (spaced_op_forward LP' budget s') as F1'.
    pose proof (spaced_op_sound LP budget s) as Z1.
    destruct (parse (spaced_op budget) s) as [[o q|e q]| | |] eqn:P1, (parse (spaced_op budget) s') as [[o' q'|e' q']| | |] eqn:P1';
      cbn [same bind] in H |- *; try contradiction; try exact I.
    2:{ assert (should_terminate e = false) as -> by (destruct e as [[[]|[]]|[]]; reflexivity).
        assert (should_terminate e' = false) as -> by (destruct e' as [[[]|[]]|[]]; reflexivity).
        rewrite (rewind_anchor (lp_rewind LP) s q (F1 _ eq_refl)), (rewind_anchor (lp_rewind LP') s' q' (F1' _ eq_refl)).
        cbn [bind]. split; auto. }
    destruct H as [<- Tq]. change (0 <=? precedence o) with true. cbn match.
    assert (length (text q) < budget) as Lq.
    { destruct (Z1 _ L eq_refl) as [(o1 & s1 & E & F & _)|(e & l & E & _)]; [|discriminate]. injection E as <- <-.
      apply op_follows_text in F. destruct F as (sp & sp' & S1 & S2 & T1). rewrite T1, !app_length in L. unfold char in *. lia. }
    pose proof (HT q q' Tq Lq) as H. cbn [parse closure].
    pose proof (term_is_forward LP usize_max overflow_checks budget d q) as F2.
    pose proof (term_is_forward LP' usize_max overflow_checks budget d q') as F2'. cbn [parse closure] in F2, F2'.
    destruct (tm d q) as [[t r|e r]| | |] eqn:P2, (tm d q') as [[t' r'|e' r']| | |] eqn:P2';
      cbn [same bind] in H |- *; try contradiction; try exact I.
    2:{ destruct e, e'. cbn [should_terminate pe_miss negb].
        rewrite (rewind_anchor (lp_rewind LP) s r), (rewind_anchor (lp_rewind LP') s' r').
        - cbn [bind]. split; auto.
        - eapply (reach_trans (lp_rewind LP')); [exact (F1' _ eq_refl)|exact (F2' _ eq_refl)].
        - eapply (reach_trans (lp_rewind LP)); [exact (F1 _ eq_refl)|exact (F2 _ eq_refl)]. }
    destruct H as [<- Tr].
    destruct (insert_loop expr_from_bin usize_max overflow_checks stack rhs o (expr_from_term t)) as [[st rhs']| | |];
      cbn [bind]; try exact I.
    apply IH; auto.
    destruct (term_sound LP usize_max overflow_checks budget big d q t r) as (ct & T2 & _ & _); auto.
    { intros s0 e0 s1 L0 P0. exact (expr_sound LP usize_max overflow_checks budget big d s0 e0 s1 L0 P0). }
    rewrite T2, app_length in Lq. unfold char in *. lia.
  Qed.

  Lemma expr_same d : forall (s : S) (s' : S'), text s = text s' -> length (text s) < budget ->
    same (ex d s) (ex d s').
  Proof.
    induction d as [|d IH]; intros s s' T L; [exact I|].
    rewrite (expr_parse_eq usize_max overflow_checks budget d s), (expr_parse_eq usize_max overflow_checks budget d s').
    cbn [parse BinExpr]. unfold bin_expr_parse, parse_impl. cbn [parse closure].
    pose proof (term_same _ _ IH s s' T L) as H.
    destruct (tm d s) as [[t r|e r]| | |] eqn:P, (tm d s') as [[t' r'|e' r']| | |] eqn:P';
      unfold fail; cbn [same bind] in H |- *; try contradiction; try exact I.
    destruct H as [<- Tr].
    assert (length (text r) < budget) as Lr.
    { destruct (term_sound LP usize_max overflow_checks budget big d s t r) as (ct & T2 & _ & _); auto.
      { intros s0 e0 s1 L0 P0. exact (expr_sound LP usize_max overflow_checks budget big d s0 e0 s1 L0 P0). }
      rewrite T2, app_length in L. unfold char in *. lia. }
    pose proof (bin_loop_same d (term_same _ _ IH) budget [] (expr_from_term t) r r' Tr Lr) as H.
    match type of H with match ?b with _ => _ end => destruct b as [[[a [y|y]] q|y q]| | |] end;
      match type of H with match ?b with _ => _ end => destruct b as [[[a' [y'|y']] q'|y' q']| | |] | _ => idtac end;
      unfold done, fail; cbn [bind same]; try contradiction; try exact I; auto.
  Qed.
End Cuts.
