(** * L_Work: how many moves the example grammar makes. *)
From Verif Require Import L_Base L_Comb L_Prim L_BinExpr L_Example P_Calls.
From Verif Require Export S_Work.

Section Work.
  Context {S A : Type} {SQ : Sequence S str} {RS : RewindSequence S A} {reach : S -> S -> Prop}.
  Context (LP : lawful_positions reach).
  Context (usize_max : nat) (overflow_checks : bool) (budget : nat).
  Let LR : lawful_rewind reach := lp_rewind LP.

  (** ** The primitive parsers *)
  Lemma the_char_moves c : tells_both (L := move) (the_char (SQ := SQ) c) (moves (the_char_parse c)) (the_char c).
  Proof.
    enough (tells (L := move) (the_char_parse (SQ := SQ) c) (moves (the_char_parse c)) (the_char_parse c)) by (split; assumption).
    intros s h. unfold moves. unfold the_char_parse. cbn [segments counted_text fst].
    induction (segments s) as [|seg segs IH]; cbn [the_char_loop].
    - exists []. now rewrite app_nil_r.
    - destruct (chars seg) as [|d ds]; [exact IH|]. destruct (d =? c)%N; [|exists []; now rewrite app_nil_r].
      cbn [advance counted_text fst snd]. destruct (advance s (len_utf8 c)); cbn; try reflexivity. now exists [Forth].
  Qed.
  Lemma atom_moves x : tells_both (L := move) (atom (SQ := SQ) x) (moves (atom_parse x)) (atom x).
  Proof.
    enough (tells (L := move) (atom_parse (SQ := SQ) x) (moves (atom_parse x)) (atom_parse x)) by (split; assumption).
    intros s h. unfold moves. unfold atom_parse. cbn [segments counted_text fst]. revert x.
    induction (segments s) as [|seg segs IH]; intros x; cbn [atom_loop].
    - exists []. now rewrite app_nil_r.
    - destruct (seg_len x <=? seg_len seg).
      + destruct (seg_split_at seg (seg_len x)) as [[u v]| | |]; cbn [bind]; try reflexivity.
        destruct (seg_eqb u x); [|exists []; now rewrite app_nil_r].
        cbn [advance counted_text fst snd]. destruct (advance s (seg_len x)); cbn; try reflexivity. now exists [Forth].
      + destruct (seg_split_at x (seg_len seg)) as [[u v]| | |]; cbn [bind]; try reflexivity.
        destruct (negb _); [exists []; now rewrite app_nil_r|]. apply IH.
  Qed.
  Lemma op_moves : tells_both (L := move) (op (SQ := SQ)) (moves op_parse) op.
  Proof.
    enough (tells (L := move) (op_parse (SQ := SQ)) (moves op_parse) op_parse) by (split; assumption).
    intros s h. unfold moves. unfold op_parse. cbn [segments counted_text fst].
    destruct (op_head (segments s)) as [c|]; [|exists []; now rewrite app_nil_r].
    destruct (if (c =? 43)%N then _ else _); [|exists []; now rewrite app_nil_r].
    cbn [advance counted_text fst snd]. destruct (advance s (len_utf8 c)); cbn; try reflexivity. now exists [Forth].
  Qed.
  Lemma integer_moves : tells_both (L := move) (integer (SQ := SQ) usize_max) (moves (integer_parse usize_max)) (integer usize_max).
  Proof.
    enough (tells (L := move) (integer_parse (SQ := SQ) usize_max) (moves (integer_parse usize_max)) (integer_parse usize_max)) by (split; assumption).
    intros s h. unfold moves. unfold integer_parse. cbn [segments counted_text fst].
    destruct (integer_loop (segments s) [] 0) as [b n]. destruct (n =? 0); [exists []; now rewrite app_nil_r|].
    destruct (from_str_radix_unwrap usize_max b); cbn [bind]; try reflexivity.
    cbn [advance counted_text fst snd]. destruct (advance s n); cbn; try reflexivity. now exists [Forth].
  Qed.

  (** ** The grammar *)
  Definition wspace : record_of S move := repetition_calls (behaves (parse (the_char 32%N))) (moves (the_char_parse 32%N)).
  Definition wop : record_of S move :=
    sequence_calls (behaves (parse (Join (space budget) op))) (sequence_calls (behaves (space_parse budget)) wspace (moves op_parse)) wspace.
  Definition wterm (ex : pfun S Expr (Miss unit)) (w : record_of S move) : record_of S move :=
    choice_calls (behaves (integer_parse usize_max)) (moves (integer_parse usize_max))
      (sequence_calls (behaves (parse (Join (atom (Str [40%N])) (closure ex))))
         (sequence_calls (behaves (atom_parse (Str [40%N]))) (moves (atom_parse (Str [40%N]))) w) (moves (atom_parse (Str [41%N])))).
  Notation ex d := (expr_parse usize_max overflow_checks budget d).
  Notation tm d := (term_parse usize_max (ex d)).
  Fixpoint wexpr (d : nat) : record_of S move :=
    match d with
    | 0 => fun _ _ => True
    | Datatypes.S d => expression_calls (behaves (tm d)) (behaves (parse (spaced_op budget))) (wterm (ex d) (wexpr d)) wop
    end.

  Lemma both_closure {O E} (p : pfun S O E) w (q : pfun (S * list move) O E) : tells p w q -> tells_both (closure p) w (closure q).
  Proof. intros T. split; exact T. Qed.

  Lemma space_tells : tells_both (space (SQ := SQ) budget) wspace (space budget).
  Proof.
    apply both_closure.
    exact (proj1 (proj1 (proj2 (proj2 (C86_one_call wspace (Repeat budget (the_char 32%N)) (Repeat budget (the_char 32%N))
      (C86_repeat LR _ (the_char 32%N) (the_char 32%N) budget (the_char_forward LP 32%N) (proj1 (the_char_moves 32%N)))))) _ _ (fun e => e) _)).
  Qed.
  Lemma op_tells : tells (parse (spaced_op budget)) wop (parse (spaced_op budget)).
  Proof.
    refine (proj1 (proj1 (C86_one_call wop (Join (Join (space budget) op) (space budget)) (Join (Join (space budget) op) (space budget)) _) _ _)).
    pose proof (C86_join wspace (moves op_parse) (space budget) op (space budget) op space_tells op_moves) as J.
    apply (C86_join _ wspace (Join (space budget) op) (space budget) (Join (space budget) op) (space budget)); [exact J|exact space_tells].
  Qed.
  Lemma term_tells e w e' : forward reach e -> tells e w e' -> tells (term_parse usize_max e) (wterm e w) (term_parse usize_max e').
  Proof.
    intros F T.
    pose proof (C86_join (moves (atom_parse (Str [40%N]))) w (atom (Str [40%N])) (closure e) (atom (Str [40%N])) (closure e')
      (atom_moves (Str [40%N])) (both_closure e w e' T)) as J1.
    pose proof (C86_join _ (moves (atom_parse (Str [41%N]))) (Join (atom (Str [40%N])) (closure e)) (atom (Str [41%N]))
      (Join (atom (Str [40%N])) (closure e')) (atom (Str [41%N])) J1 (atom_moves (Str [41%N]))) as J2.
    pose proof (proj1 (C86_one_call _ _ _ J2) _ (fun '((_, x), _) => x)) as M1.
    pose proof (C86_or LR _ _ (integer usize_max) _ (integer usize_max) _ (integer_forward LP usize_max) (integer_forward LP usize_max) integer_moves M1) as O1.
    pose proof (proj1 (C86_one_call _ _ _ O1) _ (fun x => match x with First n => Integer n | Last y => Parenthesized y end)) as M2.
    exact (proj1 (proj1 (proj2 (C86_one_call _ _ _ M2)) _ (fun _ => MkMiss tt))).
  Qed.
  Lemma expr_tells d : tells (ex d) (wexpr d) (ex d).
  Proof.
    induction d as [|d IH]; [intros s h; reflexivity|].
    pose proof (term_tells _ _ _ (expr_forward LP usize_max overflow_checks budget d) IH) as T.
    pose proof (C86_bin_expr LR expr_from_term expr_from_bin usize_max overflow_checks budget _ _
      (closure (tm d)) (spaced_op budget) (closure (tm d)) (spaced_op budget)
      (term_forward LP usize_max _ (expr_forward LP usize_max overflow_checks budget d)) (spaced_op_forward LP budget) T op_tells) as B.
    pose proof (proj1 (C86_one_call _ _ _ B) _ (fun '(e, _) => e)) as M.
    exact (proj1 (proj1 (proj2 (C86_one_call _ _ _ M)) _ (fun _ => MkMiss tt))).
  Qed.

  (** ** How much that is *)
  Lemma is_succ {O E} `{ParseError E} (p : pfun S O E) s o r : behaves p s (Succ o r) -> p s = Ret (Ok o r).
  Proof. exact (fun x => x). Qed.
  Notation len s := (length (text s)).

  Lemma space_cost (s : S) ms : wspace s ms -> forall sp rest, text s = sp ++ rest -> Forall (eq 32%N) sp -> no_space rest ->
    length ms = length sp + 1.
  Proof.
    unfold wspace. cbn [parse the_char]. induction 1 as [s ms NS AC|s o m c0 c1 P W C IH]; intros sp rest T F N.
    - destruct (the_char_exact LP 32%N s) as [H1 H2]. destruct sp as [|c sp].
      + inversion AC as [? ? NM _|? c0 _ W]; subst.
        * exfalso. apply NM. exists (MkMiss tt). split; [reflexivity|]. exists s. apply H2. cbn in T. rewrite T. exact N.
        * unfold moves in W. rewrite H2 in W by (cbn in T; rewrite T; exact N). subst. reflexivity.
      + exfalso. apply NS. inversion F; subst. destruct (H1 _ T) as (s' & P & _). exists tt, s'. exact P.
    - unfold moves in W. apply is_succ in P. rewrite P in W. subst c0. destruct (the_char_sound LP 32%N s _ P) as [T' _].
      destruct sp as [|c sp]; cbn in T; rewrite T' in T; [exfalso; apply (N (text m)); exact (eq_sym T)|].
      injection T as <- T. inversion F; subst. cbn. now rewrite (IH sp rest).
  Qed.

  Lemma join_space_op (s : S) x : parse (Join (space budget) op) s = Ret x -> x =
    match space_parse budget s with
    | Ret (Ok u m) => match op_parse m with Ret (Ok o r) => Ok (u, o) r | Ret (Err e l) => Err (Last e) l | _ => x end
    | Ret (Err e l) => Err (First e) l
    | _ => x
    end.
  Proof.
    cbn [parse Join]. unfold join_parse. cbn [parse space op closure].
    destruct (space_parse budget s) as [[u m|e l]| | |]; unfold done, fail; cbn; try congruence.
    destruct (op_parse m) as [[o r|e l]| | |]; cbn; try congruence.
  Qed.

  Lemma op_cost (s : S) ms x : len s < budget -> wop s ms -> parse (spaced_op budget) s = Ret x ->
    match x with
    | Ok o r => length ms + len r = len s + 2 /\ len r + 3 <= len s
    | Err _ _ => (no_space (text s) -> length ms = 1) /\ (~ no_space (text s) -> length ms <= 3 * len s)
    end.
  Proof.
    intros L W P. rewrite spaced_op_parse in P.
    destruct (split_spaces (text s)) as (sp & rest & T & F & N).
    destruct (space_exact LP budget s sp rest T F N L) as [H1 H2].
    assert (forall ms, sequence_calls (behaves (space_parse budget)) wspace (moves op_parse) s ms ->
      length ms = length sp + 1 + match parse (Join (space budget) op) s with Ret (Ok _ _) => 1 | _ => 0 end) as J.
    { intros ms' SC. cbn [parse Join]. unfold join_parse. cbn [parse space op closure].
      inversion SC as [? ? NS WS|? u m c0 c1 PS WS WO]; subst.
      - rewrite (space_cost s ms' WS sp rest T F N). destruct (space_parse budget s) as [[u m|e l]| | |] eqn:PS; unfold done, fail; cbn [bind]; try (unfold char in *; lia).
        exfalso. apply NS. exists u, m. exact PS.
      - apply is_succ in PS. rewrite PS. cbn. rewrite app_length, (space_cost s c0 WS sp rest T F N). unfold moves in WO. subst c1.
        destruct (op_parse m) as [[o r|e l]| | |]; unfold done, fail; cbn; unfold char in *; lia. }
    unfold wop in W. destruct sp as [|c sp0].
    - destruct (H1 eq_refl) as (l & PS & _). rewrite PS in P. cbn [bind] in P. injection P as <-.
      assert (parse (Join (space budget) op) s = Ret (Err (First (MkMiss tt)) l)) as PJ
        by (cbn [parse Join]; unfold join_parse; cbn [parse space closure]; now rewrite PS).
      inversion W as [? ? NS WJ|? u m c0 c1 PJ' _ _]; subst; [|apply is_succ in PJ'; congruence].
      apply J in WJ. rewrite PJ in WJ. cbn in WJ, T. subst rest. split; [intros _; cbn; unfold char in *; lia|intros X; now destruct X].
    - destruct H2 as (s1 & PS & T1 & R1); [discriminate|]. subst rest. rewrite PS in P. cbn [bind] in P.
      destruct (op_parse s1) as [[o s2|e l]| | |] eqn:PO; cbn [bind] in P; try discriminate.
      + assert (parse (Join (space budget) op) s = Ret (Ok (tt, o) s2)) as PJ
          by (cbn [parse Join]; unfold join_parse; cbn [parse space op closure]; rewrite PS; unfold done; cbn; now rewrite PO).
        inversion W as [? ? NS WJ|? u m c0 c1 PJ' WJ WS]; subst; [exfalso; apply NS; exists (tt, o), s2; exact PJ|].
        apply is_succ in PJ'. rewrite PJ in PJ'. injection PJ' as <- <-. apply J in WJ. rewrite PJ in WJ. rewrite app_length, WJ.
        destruct (op_exact LP s1) as [H3 H4]. destruct (symbol_dec (text s1)) as [(o' & rest1 & E)|E]; [|rewrite (H4 E) in PO; discriminate].
        destruct (H3 _ _ E) as (s2' & PO' & T2 & _). rewrite PO' in PO. injection PO as <- <-.
        destruct (split_spaces (text s2')) as (sp' & rest' & T' & F' & N').
        rewrite (space_cost s2' c1 WS sp' rest' T' F' N').
        assert (len s = length (c :: sp0) + 1 + len s2') as LS by (rewrite T, app_length, E, T2; cbn; unfold char in *; lia).
        assert (len s2' = length sp' + length rest') as LS2 by (rewrite T', app_length; reflexivity).
        assert (len s2' < budget) as L2 by (cbn in LS; unfold char in *; lia).
        destruct (space_exact LP budget s2' sp' rest' T' F' N' L2) as [H5 H6]. destruct sp' as [|c' sp'].
        * destruct (H5 eq_refl) as (l & PS2 & _). rewrite PS2 in P. cbn [bind] in P. injection P as <-.
          split; [intros X; exfalso; inversion F; subst; eapply X; exact T|]. intros _. cbn in *. unfold char in *. lia.
        * destruct H6 as (s3 & PS2 & T3 & _); [discriminate|]. rewrite PS2 in P. cbn [bind] in P. injection P as <-.
          rewrite T3. cbn in *. unfold char in *. lia.
      + injection P as <-.
        assert (parse (Join (space budget) op) s = Ret (Err (Last e) l)) as PJ
          by (cbn [parse Join]; unfold join_parse; cbn [parse space op closure]; rewrite PS; unfold done; cbn; now rewrite PO).
        inversion W as [? ? NS WJ|? u m c0 c1 PJ' _ _]; subst; [|apply is_succ in PJ'; congruence].
        apply J in WJ. rewrite PJ in WJ.
        split; [intros X; exfalso; inversion F; subst; eapply X; exact T|]. intros _.
        rewrite T, app_length. cbn in *. unfold char in *. lia.
  Qed.

  Context (big : 2 < usize_max).
  Definition expr_bound (d : nat) : Prop := forall (s : S) ms x, len s < budget -> wexpr d s ms -> ex d s = Ret x ->
    match x with
    | Ok _ r => (no_space (text r) -> length ms + 3 * len r <= 3 * len s + 2) /\ (~ no_space (text r) -> length ms <= 3 * len s + 1)
    | Err _ _ => length ms <= 3 * len s + 1
    end.

  Lemma closing_no_space (s r : S) u : atom_parse (Str [41%N]) s = Ret (Ok u r) -> no_space (text s) /\ len s = 1 + len r.
  Proof.
    intros P. destruct (atom_one_sound LP 41%N s _ eq_refl P) as [T _]. rewrite T. split; [|reflexivity]. intros y E. discriminate.
  Qed.

  Lemma term_cost d : expr_bound d -> forall (s : S) ms x, len s < budget -> wterm (ex d) (wexpr d) s ms -> tm d s = Ret x ->
    match x with Ok _ r => length ms + 3 * len r <= 3 * len s | Err _ _ => length ms <= 3 * len s + 1 end.
  Proof.
    intros HE s ms x L W P. rewrite (term_parse_eq LP) in P. unfold wterm in W.
    inversion W as [? ? NM WI|? c0 c1 MI WI WP]; subst.
    - destruct (integer_parse usize_max s) as [[n r|e l]| | |] eqn:PI; cbn [bind] in P; try discriminate.
      + injection P as <-. unfold moves in WI. rewrite PI in WI. subst. cbn [length].
        destruct (integer_exact LP usize_max s) as (ds & rest & T & F & _ & H1 & H2).
        destruct ds as [|c ds]; [rewrite (H1 eq_refl) in PI; discriminate|].
        destruct (numeral_exists (c :: ds) F) as [k K]; [discriminate|]. destruct (H2 k K) as [K1 K2].
        destruct (le_lt_dec k usize_max) as [B|B]; [|rewrite (K2 B) in PI; discriminate].
        destruct (K1 B) as (s' & PI' & T' & _). rewrite PI' in PI. injection PI as <- <-. rewrite T, T', app_length. cbn. unfold char in *. lia.
      + exfalso. apply NM. exists e. split; [now destruct e|eauto].
    - destruct MI as (e & _ & l & PI). rewrite PI in P. cbn [bind] in P. unfold moves in WI. rewrite PI in WI. subst c0. cbn [app length mark marks_move].
      destruct (atom_parse (Str [40%N]) s) as [[u s1|e1 l1]| | |] eqn:PA; cbn [bind] in P; try discriminate.
      + destruct (atom_one_sound LP 40%N s _ eq_refl PA) as [TA _].
        assert (len s = 1 + len s1) as LA by (rewrite TA; reflexivity).
        destruct (ex d s1) as [[e0 s2|e0 l0]| | |] eqn:PE; cbn [bind] in P; try discriminate.
        * assert (len s1 < budget) as L1 by (unfold char in *; lia).
          destruct (expr_sound LP usize_max overflow_checks budget big d s1 e0 s2 L1 PE) as (cs & T2 & _).
          assert (len s2 <= len s1) as LE by (rewrite T2, app_length; lia).
          assert (parse (Join (atom (Str [40%N])) (closure (ex d))) s = Ret (Ok (u, e0) s2)) as PJ
            by (cbn [parse Join]; unfold join_parse; cbn [parse atom closure]; rewrite PA; unfold done; cbn; now rewrite PE).
          inversion WP as [? ? NS _|? v m c0 c2 PJ' WJ WC]; subst; [exfalso; apply NS; exists (u, e0), s2; exact PJ|].
          apply is_succ in PJ'. rewrite PJ in PJ'. injection PJ' as <- <-.
          inversion WJ as [? ? NS _|? v m c3 c4 PA' WA WE]; subst; [exfalso; apply NS; exists u, s1; exact PA|].
          apply is_succ in PA'. rewrite PA in PA'. injection PA' as <- <-. unfold moves in WA, WC. rewrite PA in WA. subst c3.
          destruct (HE s1 c4 _ L1 WE PE) as [B1 B2]. rewrite !app_length.
          destruct (atom_parse (Str [41%N]) s2) as [[u' s3|e3 l3]| | |] eqn:PC; cbn [bind] in P; try discriminate; injection P as <-; subst c2; cbn [length].
          -- destruct (closing_no_space _ _ _ PC) as [NS LC]. specialize (B1 NS). unfold char in *. lia.
          -- assert (no_space (text s2) \/ ~ no_space (text s2)) as [NS|NS].
             { unfold no_space. destruct (text s2) as [|c y]; [left; discriminate|]. destruct (N.eq_dec c 32) as [->|X]; [right; intros Y; now apply (Y y)|left; congruence]. }
             ++ specialize (B1 NS). unfold char in *. lia.
             ++ specialize (B2 NS). unfold char in *. lia.
        * injection P as <-. assert (len s1 < budget) as L1 by (unfold char in *; lia).
          assert (parse (Join (atom (Str [40%N])) (closure (ex d))) s = Ret (Err (Last e0) l0)) as PJ
            by (cbn [parse Join]; unfold join_parse; cbn [parse atom closure]; rewrite PA; unfold done; cbn; now rewrite PE).
          inversion WP as [? ? NS WJ|? v m c0 c2 PJ' _ _]; subst; [|apply is_succ in PJ'; congruence].
          inversion WJ as [? ? NS' _|? v m c3 c4 PA' WA WE]; subst; [exfalso; apply NS'; exists u, s1; exact PA|].
          apply is_succ in PA'. rewrite PA in PA'. injection PA' as <- <-. unfold moves in WA. rewrite PA in WA. subst c3.
          pose proof (HE s1 c4 _ L1 WE PE) as B. cbn in B. rewrite app_length. cbn [length]. unfold char in *. lia.
      + injection P as <-.
        assert (parse (Join (atom (Str [40%N])) (closure (ex d))) s = Ret (Err (First e1) l1)) as PJ
          by (cbn [parse Join]; unfold join_parse; cbn [parse atom closure]; now rewrite PA).
        inversion WP as [? ? NS WJ|? v m c0 c2 PJ' _ _]; subst; [|apply is_succ in PJ'; congruence].
        inversion WJ as [? ? NS' WA|? v m c3 c4 PA' _ _]; subst; [|apply is_succ in PA'; congruence].
        unfold moves in WA. rewrite PA in WA. subst c1. cbn. lia.
  Qed.

  Notation pair_ d := (sequence (behaves (parse (spaced_op budget))) (behaves (tm d))).

  Lemma no_space_dec cs : no_space cs \/ ~ no_space cs.
  Proof.
    unfold no_space. destruct cs as [|c y]; [left; discriminate|].
    destruct (N.eq_dec c 32) as [->|X]; [right; intros Y; now apply (Y y)|left; congruence].
  Qed.

  Lemma chain_cost d : expr_bound d -> forall (m : S) ms,
    repetition_calls (pair_ d) (sequence_calls (behaves (parse (spaced_op budget))) wop (wterm (ex d) (wexpr d))) m ms ->
    len m < budget -> forall ps r er, many (pair_ d) m ps r -> pair_ d r (Missed er) ->
    (no_space (text r) -> length ms + 3 * len r <= 3 * len m + 2) /\ (~ no_space (text r) -> length ms <= 3 * len m + 1).
  Proof.
    intros HE m ms C. induction C as [m ms NS AC|m [o t] m1 c0 c1 P W C IH]; intros L ps r er M Miss.
    - inversion M as [s|s v m1 vs r0 P M1]; subst; [|exfalso; apply NS; exists v, m1; exact P].
      assert (exists c0, ms = c0 ++ [Back] /\ sequence_calls (behaves (parse (spaced_op budget))) wop (wterm (ex d) (wexpr d)) r c0) as (c0 & -> & W).
      { inversion AC as [? ? NM _|? c0 _ W]; subst; [exfalso; apply NM; exists er; exact Miss|]. exists c0. auto. }
      rewrite app_length. cbn [length].
      inversion Miss as [|? e0 (_ & l & PO)| | |? o0 m0 e0 PO (_ & l & PT)| |]; subst.
      + inversion W as [? ? NO WO|? o m' c1 c2 PO' _ _]; subst; [|apply is_succ in PO'; congruence].
        destruct (op_cost r c0 _ L WO PO) as [B1 B2]. split; intros X; [rewrite (B1 X)|specialize (B2 X)]; unfold char in *; lia.
      + inversion W as [? ? NO WO|? o m' c1 c2 PO' WO WT]; subst; [exfalso; apply NO; exists o0, m0; exact PO|].
        apply is_succ in PO, PO'. rewrite PO in PO'. injection PO' as <- <-.
        destruct (op_cost r c1 _ L WO PO) as [B1 B2].
        assert (len m0 < budget) as L0 by (unfold char in *; lia).
        pose proof (term_cost d HE m0 c2 _ L0 WT PT) as B. cbn in B. rewrite app_length.
        split; intros X; [|unfold char in *; lia].
        exfalso. destruct (spaced_op_sound LP budget r _ L PO) as [(o' & s' & _ & (sp & sp' & (N1 & F1) & _ & T & _) & _)|(e & l0 & E & _)]; [|discriminate].
        destruct sp as [|c sp]; [congruence|]. inversion F1; subst. eapply X. exact T.
    - inversion M as [s|s v m2 vs r0 P' M1]; subst.
      + exfalso. inversion P as [? x y z w P1 P2| | | | | |]; subst. apply is_succ in P1, P2.
        inversion Miss as [|? e0 (_ & l & PO)| | |? o0 m0 e0 PO (_ & l & PT)| |]; subst; [congruence|].
        apply is_succ in PO. rewrite P1 in PO. injection PO as <- <-. congruence.
      + inversion P as [? x k1 y r1 P1 P2| | | | | |]; subst. inversion P' as [? x' k1' y' r1' P1' P2'| | | | | |]; subst.
        apply is_succ in P1, P2, P1', P2'. rewrite P1 in P1'. injection P1' as <- <-. rewrite P2 in P2'. injection P2' as <- <-.
        inversion W as [? ? NO _|? o' m' c2 c3 PO WO WT]; subst; [exfalso; apply NO; exists o, k1; exact P1|].
        apply is_succ in PO. rewrite P1 in PO. injection PO as <- <-.
        destruct (op_cost m c2 _ L WO P1) as [B1 B2].
        assert (len k1 < budget) as L0 by (unfold char in *; lia).
        pose proof (term_cost d HE k1 c3 _ L0 WT P2) as B. cbn in B.
        destruct (IH ltac:(unfold char in *; lia) _ _ _ M1 Miss) as [B3 B4]. rewrite !app_length.
        split; intros X; [specialize (B3 X)|specialize (B4 X)]; unfold char in *; lia.
  Qed.

  Lemma expr_cost d : expr_bound d.
  Proof.
    induction d as [|d IH]; intros s ms x L W P; [discriminate|].
    rewrite (expr_parse_eq (SQ := SQ)) in P. cbn [wexpr] in W. unfold expression_calls in W.
    destruct (parse (BinExpr expr_from_term expr_from_bin usize_max overflow_checks budget (closure (tm d)) (spaced_op budget)) s)
      as [[[e er] r|e l]| | |] eqn:PB; cbn [bind] in P; try discriminate; injection P as <-.
    - destruct (bin_ok LP usize_max overflow_checks budget big d s e er r PB) as (t & m & ps & tr & PT & M & Miss & _).
      inversion W as [? ? NS _|? t' m' c0 c1 PT' WT WC]; subst; [exfalso; apply NS; exists t, m; exact PT|].
      apply is_succ in PT'. rewrite PT in PT'. injection PT' as <- <-.
      pose proof (term_cost d IH s c0 _ L WT PT) as B. cbn in B.
      assert (len m < budget) as Lm by (unfold char in *; lia).
      destruct (chain_cost d IH m c1 WC Lm ps r er M Miss) as [B1 B2]. rewrite app_length.
      split; intros X; [specialize (B1 X)|specialize (B2 X)]; unfold char in *; lia.
    - pose proof (bin_sound LR expr_from_term expr_from_bin usize_max overflow_checks (closure (tm d)) (spaced_op budget)
        (term_is_forward LP usize_max overflow_checks budget d) (spaced_op_forward LP budget) (op_in_range usize_max budget big) budget s) as BS.
      specialize (BS (Missed e)). assert (should_terminate e = false) as ST by (destruct e as [[[[]|[]]|[]]|[]]; reflexivity).
      specialize (BS (conj ST (ex_intro _ l PB)) ltac:(discriminate)).
      inversion BS as [|? e0 (_ & l0 & PT)| | | |]; subst.
      inversion W as [? ? _ WT|? t' m' c0 c1 PT' _ _]; subst; [|cbn in PT, PT'; congruence].
      exact (term_cost d IH s ms _ L WT PT).
  Qed.

  (** ** The exact number *)
  Definition extra (e : Expr) : nat := 2 * operators e + 3 * parentheses e + numbers e.
  Definition extra_term (t : Term) : nat := 2 * operators_term t + 3 * parentheses_term t + numbers_term t.
  Definition extra_pairs (ps : list (Op * Term)) : nat := fold_right (fun p n => 2 + extra_term (snd p) + n) 0 ps.

  Lemma extra_pairs_app ps qs : extra_pairs (ps ++ qs) = extra_pairs ps + extra_pairs qs.
  Proof. unfold extra_pairs. induction ps as [|p ps IH]; cbn [app fold_right]; [reflexivity|]. rewrite IH. lia. Qed.
  Lemma extra_reading (tr : etree) : extra (ebuild tr) = extra_term (fst (reading tr)) + extra_pairs (snd (reading tr)).
  Proof.
    induction tr as [t|l IHl o r IHr]; [cbn; lia|]. cbn [reading fst snd]. rewrite extra_pairs_app.
    change (extra_pairs ((o, fst (reading r)) :: snd (reading r))) with (2 + extra_term (fst (reading r)) + extra_pairs (snd (reading r))).
    change (extra (ebuild (Node l o r))) with (2 * (operators (ebuild l) + 1 + operators (ebuild r)) + 3 * (parentheses (ebuild l) + parentheses (ebuild r)) + (numbers (ebuild l) + numbers (ebuild r))).
    unfold extra in IHl, IHr. lia.
  Qed.

  Notation dig s := (digits_in (text s)).
  Lemma digits_app a b : digits_in (a ++ b) = digits_in a + digits_in b.
  Proof. unfold digits_in. now rewrite filter_app, app_length. Qed.
  Lemma digits_all ds : Forall digit ds -> digits_in ds = length ds.
  Proof.
    unfold digits_in. induction 1 as [|c ds H _ IH]; [reflexivity|]. cbn.
    replace (is_digit c) with true; [cbn; now rewrite IH|]. unfold is_digit, digit in *. symmetry. apply andb_true_iff. split; apply N.leb_le; lia.
  Qed.
  Lemma digits_spaces sp : Forall (eq 32%N) sp -> digits_in sp = 0.
  Proof. induction 1 as [|c sp <- _ IH]; [reflexivity|exact IH]. Qed.
  Lemma op_digits (s : S) o r : len s < budget -> parse (spaced_op budget) s = Ret (Ok o r) -> dig s = dig r.
  Proof.
    intros L P. destruct (spaced_op_sound LP budget s _ L P) as [(o' & s' & E & (sp & sp' & (_ & F1) & (_ & F2) & T & _) & _)|(e & l0 & E & _)]; [|discriminate].
    injection E as <- <-. rewrite T, !digits_app, (digits_spaces _ F1), (digits_spaces _ F2). destruct o; reflexivity.
  Qed.

  Definition expr_costs (d : nat) : Prop := forall (s : S) ms e r, len s < budget -> wexpr d s ms -> ex d s = Ret (Ok e r) ->
    no_space (text r) -> length ms + len r + dig s = len s + dig r + extra e + 2.

  Lemma term_costs d : expr_costs d -> forall (s : S) ms t r, len s < budget -> wterm (ex d) (wexpr d) s ms -> tm d s = Ret (Ok t r) ->
    length ms + len r + dig s = len s + dig r + extra_term t /\ len r <= len s.
  Proof.
    intros HE s ms t r L W P. rewrite (term_parse_eq LP) in P. unfold wterm in W.
    inversion W as [? ? NM WI|? c0 c1 MI WI WP]; subst.
    - destruct (integer_parse usize_max s) as [[n r'|e l]| | |] eqn:PI; cbn [bind] in P; try discriminate.
      + injection P as <- <-. unfold moves in WI. rewrite PI in WI. subst. cbn [length].
        destruct (integer_exact LP usize_max s) as (ds & rest & T & F & _ & H1 & H2).
        destruct ds as [|c ds]; [rewrite (H1 eq_refl) in PI; discriminate|].
        destruct (numeral_exists (c :: ds) F) as [k K]; [discriminate|]. destruct (H2 k K) as [K1 K2].
        destruct (le_lt_dec k usize_max) as [B|B]; [|rewrite (K2 B) in PI; discriminate].
        destruct (K1 B) as (s' & PI' & T' & _). rewrite PI' in PI. injection PI as <- <-.
        rewrite T, T', digits_app, (digits_all _ F), app_length. cbn. unfold char in *. lia.
      + exfalso. apply NM. exists e. split; [now destruct e|eauto].
    - destruct MI as (e & _ & l & PI). rewrite PI in P. cbn [bind] in P. unfold moves in WI. rewrite PI in WI. subst c0. cbn [app length mark marks_move].
      destruct (atom_parse (Str [40%N]) s) as [[u s1|e1 l1]| | |] eqn:PA; cbn [bind] in P; try discriminate.
      destruct (atom_one_sound LP 40%N s _ eq_refl PA) as [TA _].
      assert (len s = 1 + len s1) as LA by (rewrite TA; reflexivity).
      assert (dig s = dig s1) as DA by (rewrite TA; reflexivity).
      destruct (ex d s1) as [[e0 s2|e0 l0]| | |] eqn:PE; cbn [bind] in P; try discriminate.
      assert (len s1 < budget) as L1 by (unfold char in *; lia).
      destruct (expr_sound LP usize_max overflow_checks budget big d s1 e0 s2 L1 PE) as (cs & T2 & _).
      assert (len s2 <= len s1) as LE by (rewrite T2, app_length; lia).
      assert (parse (Join (atom (Str [40%N])) (closure (ex d))) s = Ret (Ok (u, e0) s2)) as PJ
        by (cbn [parse Join]; unfold join_parse; cbn [parse atom closure]; rewrite PA; unfold done; cbn; now rewrite PE).
      inversion WP as [? ? NS _|? v m c0 c2 PJ' WJ WC]; subst; [exfalso; apply NS; exists (u, e0), s2; exact PJ|].
      apply is_succ in PJ'. rewrite PJ in PJ'. injection PJ' as <- <-.
      inversion WJ as [? ? NS _|? v m c3 c4 PA' WA WE]; subst; [exfalso; apply NS; exists u, s1; exact PA|].
      apply is_succ in PA'. rewrite PA in PA'. injection PA' as <- <-. unfold moves in WA, WC. rewrite PA in WA. subst c3.
      rewrite !app_length.
      destruct (atom_parse (Str [41%N]) s2) as [[u' s3|e3 l3]| | |] eqn:PC; cbn [bind] in P; try discriminate; injection P as <- <-; subst c2; cbn [length].
      destruct (closing_no_space _ _ _ PC) as [NS LC].
      assert (dig s2 = dig s3) as DC by (destruct (atom_one_sound LP 41%N s2 _ eq_refl PC) as [TC _]; rewrite TC; reflexivity). pose proof (HE s1 c4 _ _ L1 WE PE NS) as B.
      change (extra_term (Parenthesized e0)) with (2 * operators e0 + 3 * (1 + parentheses e0) + numbers e0). unfold extra in B. unfold char in *. lia.
  Qed.

  Lemma chain_costs d : expr_costs d -> forall (m : S) ms,
    repetition_calls (pair_ d) (sequence_calls (behaves (parse (spaced_op budget))) wop (wterm (ex d) (wexpr d))) m ms ->
    len m < budget -> forall ps r er, many (pair_ d) m ps r -> pair_ d r (Missed er) -> no_space (text r) ->
    length ms + len r + dig m = len m + dig r + extra_pairs ps + 2.
  Proof.
    intros HE m ms C. induction C as [m ms NS AC|m [o t] m1 c0 c1 P W C IH]; intros L ps r er M Miss X.
    - inversion M as [s|s v m1 vs r0 P M1]; subst; [|exfalso; apply NS; exists v, m1; exact P].
      assert (exists c0, ms = c0 ++ [Back] /\ sequence_calls (behaves (parse (spaced_op budget))) wop (wterm (ex d) (wexpr d)) r c0) as (c0 & -> & W).
      { inversion AC as [? ? NM _|? c0 _ W]; subst; [exfalso; apply NM; exists er; exact Miss|]. exists c0. auto. }
      rewrite app_length. cbn [length].
      inversion Miss as [|? e0 (_ & l & PO)| | |? o0 m0 e0 PO (_ & l & PT)| |]; subst.
      + inversion W as [? ? NO WO|? o m' c1 c2 PO' _ _]; subst; [|apply is_succ in PO'; congruence].
        destruct (op_cost r c0 _ L WO PO) as [B1 _]. rewrite (B1 X). cbn. unfold char in *; lia.
      + exfalso. apply is_succ in PO.
        destruct (spaced_op_sound LP budget r _ L PO) as [(o' & s' & _ & (sp & sp' & (N1 & F1) & _ & T & _) & _)|(e & l0 & E & _)]; [|discriminate].
        destruct sp as [|c sp]; [congruence|]. inversion F1; subst. eapply X. exact T.
    - inversion M as [s|s v m2 vs r0 P' M1]; subst.
      + exfalso. inversion P as [? x y z w P1 P2| | | | | |]; subst. apply is_succ in P1, P2.
        inversion Miss as [|? e0 (_ & l & PO)| | |? o0 m0 e0 PO (_ & l & PT)| |]; subst; [congruence|].
        apply is_succ in PO. rewrite P1 in PO. injection PO as <- <-. congruence.
      + inversion P as [? x k1 y r1 P1 P2| | | | | |]; subst. inversion P' as [? x' k1' y' r1' P1' P2'| | | | | |]; subst.
        apply is_succ in P1, P2, P1', P2'. rewrite P1 in P1'. injection P1' as <- <-. rewrite P2 in P2'. injection P2' as <- <-.
        inversion W as [? ? NO _|? o' m' c2 c3 PO WO WT]; subst; [exfalso; apply NO; exists o, k1; exact P1|].
        apply is_succ in PO. rewrite P1 in PO. injection PO as <- <-.
        destruct (op_cost m c2 _ L WO P1) as [B1 B2].
        pose proof (op_digits m o k1 L P1) as BD.
        assert (len k1 < budget) as L0 by (unfold char in *; lia).
        destruct (term_costs d HE k1 c3 _ _ L0 WT P2) as [B B'].
        pose proof (IH ltac:(unfold char in *; lia) _ _ _ M1 Miss X) as B3. rewrite !app_length.
        change (extra_pairs ((o, t) :: vs)) with (2 + extra_term t + extra_pairs vs). unfold char in *; lia.
  Qed.

  Lemma expr_costs_all d : expr_costs d.
  Proof.
    induction d as [|d IH]; intros s ms x r0 L W P X; [discriminate|].
    rewrite (expr_parse_eq (SQ := SQ)) in P. cbn [wexpr] in W. unfold expression_calls in W.
    destruct (parse (BinExpr expr_from_term expr_from_bin usize_max overflow_checks budget (closure (tm d)) (spaced_op budget)) s)
      as [[[e er] r|e l]| | |] eqn:PB; cbn [bind] in P; try discriminate; injection P as <- <-.
    destruct (bin_ok LP usize_max overflow_checks budget big d s e er r PB) as (t & m & ps & tr & PT & M & Miss & R & _ & ->).
    inversion W as [? ? NS _|? t' m' c0 c1 PT' WT WC]; subst; [exfalso; apply NS; exists t, m; exact PT|].
    apply is_succ in PT'. rewrite PT in PT'. injection PT' as <- <-.
    destruct (term_costs d IH s c0 _ _ L WT PT) as [B B'].
    assert (len m < budget) as Lm by (unfold char in *; lia).
    pose proof (chain_costs d IH m c1 WC Lm ps r er M Miss X) as B1. rewrite app_length, extra_reading, R. cbn [fst snd].
    unfold char in *; lia.
  Qed.
End Work.
