(** * L_Work2: how many moves the grammar of example/src/cache.rs makes.  The
    proofs follow those of L_Work. *)
From Verif Require Import L_Base L_Comb L_Prim L_BinExpr L_Example P_Calls L_Work L_Cache.
From Verif Require Export S_Work2.
Import M_Cache L_Cache S_Work2.

Section Work.
  Context {S A : Type} {SQ : Sequence S str} {RS : RewindSequence S A} {reach : S -> S -> Prop}.
  Context (LP : lawful_positions reach).
  Context (usize_max : nat) (overflow_checks : bool) (budget : nat).
  Let LR : lawful_rewind reach := lp_rewind LP.

  (** ** The primitive parsers *)
  Lemma any_char_moves : tells_both (L := move) (any_char (SQ := SQ)) (moves any_char_parse) any_char.
  Proof.
    enough (tells (L := move) (any_char_parse (SQ := SQ)) (moves any_char_parse) any_char_parse) by (split; assumption).
    intros s h. unfold moves. unfold any_char_parse. cbn [segments counted_text fst].
    induction (segments s) as [|seg segs IH]; cbn [any_char_loop].
    - exists []. now rewrite app_nil_r.
    - destruct (chars seg) as [|d ds]; [exact IH|].
      cbn [advance counted_text fst snd]. destruct (advance s (len_utf8 d)); cbn; try reflexivity. now exists [Forth].
  Qed.
  Lemma op_moves : tells_both (L := move) (op (SQ := SQ)) (moves any_char_parse) op.
  Proof.
    enough (tells (L := move) (op_parse (SQ := SQ)) (moves any_char_parse) op_parse) by (split; assumption).
    exact (proj1 (proj1 (proj2 (proj2 (C86_one_call _ any_char any_char any_char_moves))) _ _ (fun e => e) _)).
  Qed.

  (** ** The grammar *)
  Notation wspace := (L_Work.wspace (S := S)).
  Definition wop : record_of S move :=
    sequence_calls (behaves (parse (Join (space budget) op))) (sequence_calls (behaves (space_parse budget)) wspace (moves any_char_parse)) wspace.
  Definition wterm (ex : pfun S Expr (Miss unit)) (w : record_of S move) : record_of S move :=
    choice_calls (behaves (the_char_parse 48%N)) (moves (the_char_parse 48%N))
      (sequence_calls (behaves (parse (Join (atom (Str [40%N])) (closure ex))))
         (sequence_calls (behaves (atom_parse (Str [40%N]))) (moves (atom_parse (Str [40%N]))) w) (moves (atom_parse (Str [41%N])))).
  Notation ex d := (expr_parse usize_max overflow_checks budget d).
  Notation tm d := (term_parse (ex d)).
  Fixpoint wexpr (d : nat) : record_of S move :=
    match d with
    | 0 => fun _ _ => True
    | Datatypes.S d => expression_calls (behaves (tm d)) (behaves (parse (spaced_op budget))) (wterm (ex d) (wexpr d)) wop
    end.

  Lemma space_tells : tells_both (space (SQ := SQ) budget) wspace (space budget).
  Proof. exact (L_Work.space_tells LP budget). Qed.
  Lemma op_tells : tells (parse (spaced_op budget)) wop (parse (spaced_op budget)).
  Proof.
    refine (proj1 (proj1 (C86_one_call wop (Join (Join (space budget) op) (space budget)) (Join (Join (space budget) op) (space budget)) _) _ _)).
    pose proof (C86_join wspace (moves any_char_parse) (space budget) op (space budget) op space_tells op_moves) as J.
    apply (C86_join _ wspace (Join (space budget) op) (space budget) (Join (space budget) op) (space budget)); [exact J|exact space_tells].
  Qed.
  Lemma term_tells e w e' : forward reach e -> tells e w e' -> tells (term_parse e) (wterm e w) (term_parse e').
  Proof.
    intros F T.
    pose proof (C86_join (moves (atom_parse (Str [40%N]))) w (atom (Str [40%N])) (closure e) (atom (Str [40%N])) (closure e')
      (atom_moves (Str [40%N])) (both_closure e w e' T)) as J1.
    pose proof (C86_join _ (moves (atom_parse (Str [41%N]))) (Join (atom (Str [40%N])) (closure e)) (atom (Str [41%N]))
      (Join (atom (Str [40%N])) (closure e')) (atom (Str [41%N])) J1 (atom_moves (Str [41%N]))) as J2.
    pose proof (proj1 (C86_one_call _ _ _ J2) _ (fun '((_, x), _) => x)) as M1.
    pose proof (C86_or LR _ _ zero _ zero _ (the_char_forward LP 48%N) (the_char_forward LP 48%N) (both_closure _ _ _ (proj1 (the_char_moves 48%N))) M1) as O1.
    pose proof (proj1 (C86_one_call _ _ _ O1) _ (fun x => match x with First _ => Zero | Last y => Parenthesized y end)) as M2.
    exact (proj1 (proj1 (proj2 (C86_one_call _ _ _ M2)) _ (fun _ => MkMiss tt))).
  Qed.
  Lemma expr_tells d : tells (ex d) (wexpr d) (ex d).
  Proof.
    induction d as [|d IH]; [intros s h; reflexivity|].
    pose proof (term_tells _ _ _ (expr_forward LP usize_max overflow_checks budget d) IH) as T.
    pose proof (C86_bin_expr LR expr_from_term expr_from_bin usize_max overflow_checks budget _ _
      (closure (tm d)) (spaced_op budget) (closure (tm d)) (spaced_op budget)
      (term_forward LP _ (expr_forward LP usize_max overflow_checks budget d)) (spaced_op_forward LP budget) T op_tells) as B.
    pose proof (proj1 (C86_one_call _ _ _ B) _ (fun '(e, _) => e)) as M.
    exact (proj1 (proj1 (proj2 (C86_one_call _ _ _ M)) _ (fun _ => MkMiss tt))).
  Qed.

  (** ** How much that is *)
  Notation len s := (length (text s)).

  Lemma op_cost (s : S) ms x : len s < budget -> wop s ms -> parse (spaced_op budget) s = Ret x ->
    match x with
    | Ok o r => length ms + len r = len s + 2 /\ len r + 3 <= len s
    | Err _ _ => (no_space (text s) -> length ms = 1) /\ (~ no_space (text s) -> length ms <= 3 * len s)
    end.
  Proof.
    intros L W P. rewrite spaced_op_parse in P.
    destruct (split_spaces (text s)) as (sp & rest & T & F & N).
    destruct (space_exact LP budget s sp rest T F N L) as [H1 H2].
    assert (forall ms, sequence_calls (behaves (space_parse budget)) wspace (moves any_char_parse) s ms ->
      length ms = length sp + 1 + match space_parse budget s with Ret (Ok _ m) => match text m with [] => 0 | _ => 1 end | _ => 0 end) as J.
    { intros ms' SC. inversion SC as [? ? NS WS|? u m c0 c1 PS WS WO]; subst.
      - rewrite (space_cost LP s ms' WS sp rest T F N). destruct (space_parse budget s) as [[u m|e l]| | |] eqn:PS; try (unfold char in *; lia).
        exfalso. apply NS. exists u, m. exact PS.
      - apply is_succ in PS. rewrite PS. rewrite app_length, (space_cost LP s c0 WS sp rest T F N). unfold moves in WO. subst c1.
        pose proof (any_char_exact LP m) as AC. destruct (text m) as [|c y]; [rewrite AC; cbn; unfold char in *; lia|].
        destruct AC as (m' & -> & _). cbn. unfold char in *; lia. }
    unfold wop in W. change (M_Example.space_parse budget) with (space_parse (S := S) budget) in H1, H2. destruct sp as [|c sp0].
    - destruct (H1 eq_refl) as (l & PS & _). rewrite PS in P, J. cbn [bind] in P. injection P as <-.
      assert (parse (Join (space budget) op) s = Ret (Err (First (MkMiss tt)) l)) as PJ
        by (cbn [parse Join]; unfold join_parse; cbn [parse space closure]; now rewrite PS).
      inversion W as [? ? NS WJ|? u m c0 c1 PJ' _ _]; subst; [|apply is_succ in PJ'; congruence].
      apply J in WJ. cbn in WJ, T. subst rest. split; [intros _; lia|intros X; now destruct X].
    - destruct H2 as (s1 & PS & T1 & R1); [discriminate|]. subst rest. rewrite PS in P, J. cbn [bind] in P.
      destruct (op_parse s1) as [[o s2|e l]| | |] eqn:PO; cbn [bind] in P; try discriminate.
      + assert (parse (Join (space budget) op) s = Ret (Ok (tt, o) s2)) as PJ
          by (cbn [parse Join]; unfold join_parse; cbn [parse space op closure]; rewrite PS; unfold done; cbn [bind]; now rewrite PO).
        inversion W as [? ? NS WJ|? u m c0 c1 PJ' WJ WS]; subst; [exfalso; apply NS; exists (tt, o), s2; exact PJ|].
        apply is_succ in PJ'. rewrite PJ in PJ'. injection PJ' as <- <-. apply J in WJ. rewrite app_length, WJ.
        destruct (op_exact LP s1) as [H3 H4]. destruct (symbol_dec (text s1)) as [(o' & rest1 & E)|E]; [|destruct (H4 E) as (l & X & _); congruence].
        destruct (H3 _ _ E) as (s2' & PO' & T2 & _). rewrite PO' in PO. injection PO as <- <-. rewrite E.
        destruct (split_spaces (text s2')) as (sp' & rest' & T' & F' & N').
        rewrite (space_cost LP s2' c1 WS sp' rest' T' F' N').
        assert (len s = length (c :: sp0) + 1 + len s2') as LS by (rewrite T, app_length, E, T2; cbn; unfold char in *; lia).
        assert (len s2' = length sp' + length rest') as LS2 by (rewrite T', app_length; reflexivity).
        assert (len s2' < budget) as L2 by (cbn in LS; unfold char in *; lia).
        destruct (space_exact LP budget s2' sp' rest' T' F' N' L2) as [H5 H6]. change (M_Example.space_parse budget) with (space_parse (S := S) budget) in H5, H6.
        destruct sp' as [|c' sp'].
        * destruct (H5 eq_refl) as (l & PS2 & _). rewrite PS2 in P. cbn [bind] in P. injection P as <-.
          split; [intros X; exfalso; inversion F; subst; eapply X; exact T|]. intros _. cbn in *. unfold char in *. lia.
        * destruct H6 as (s3 & PS2 & T3 & _); [discriminate|]. rewrite PS2 in P. cbn [bind] in P. injection P as <-.
          rewrite T3. cbn in *. unfold char in *. lia.
      + injection P as <-.
        assert (parse (Join (space budget) op) s = Ret (Err (Last e) l)) as PJ
          by (cbn [parse Join]; unfold join_parse; cbn [parse space op closure]; rewrite PS; unfold done; cbn [bind]; now rewrite PO).
        inversion W as [? ? NS WJ|? u m c0 c1 PJ' _ _]; subst; [|apply is_succ in PJ'; congruence].
        apply J in WJ.
        split; [intros X; exfalso; inversion F; subst; eapply X; exact T|]. intros _.
        rewrite T, app_length. destruct (text s1); cbn in *; unfold char in *; lia.
  Qed.

  Context (big : 1 < usize_max).
  Definition expr_bound (d : nat) : Prop := forall (s : S) ms x, len s < budget -> wexpr d s ms -> ex d s = Ret x ->
    match x with
    | Ok _ r => (no_space (text r) -> length ms + 3 * len r <= 3 * len s + 2) /\ (~ no_space (text r) -> length ms <= 3 * len s + 1)
    | Err _ _ => length ms <= 3 * len s + 1
    end.

  Lemma closing_no_space (s r : S) u : atom_parse (Str [41%N]) s = Ret (Ok u r) -> no_space (text s) /\ len s = 1 + len r.
  Proof.
    intros P. destruct (atom_one_sound LP 41%N s _ eq_refl P) as [T _]. rewrite T. split; [|reflexivity]. intros y E. discriminate.
  Qed.

  Lemma term_cost d : expr_bound d -> forall (s : S) ms x, len s < budget -> wterm (ex d) (wexpr d) s ms -> tm d s = Ret x ->
    match x with Ok _ r => length ms + 3 * len r <= 3 * len s | Err _ _ => length ms <= 3 * len s + 1 end.
  Proof.
    intros HE s ms x L W P. rewrite (term_parse_eq LP) in P. unfold wterm in W.
    inversion W as [? ? NM WI|? c0 c1 MI WI WP]; subst.
    - destruct (the_char_parse 48%N s) as [[n r|e l]| | |] eqn:PI; cbn [bind] in P; try discriminate.
      + injection P as <-. unfold moves in WI. rewrite PI in WI. subst. cbn [length].
        destruct (the_char_sound LP 48%N s _ PI) as [T _]. rewrite T. cbn. unfold char in *. lia.
      + exfalso. apply NM. exists e. split; [now destruct e|eauto].
    - destruct MI as (e & _ & l & PI). rewrite PI in P. cbn [bind] in P. unfold moves in WI. rewrite PI in WI. subst c0. cbn [app length mark marks_move].
      destruct (atom_parse (Str [40%N]) s) as [[u s1|e1 l1]| | |] eqn:PA; cbn [bind] in P; try discriminate.
      + destruct (atom_one_sound LP 40%N s _ eq_refl PA) as [TA _].
        assert (len s = 1 + len s1) as LA by (rewrite TA; reflexivity).
        destruct (ex d s1) as [[e0 s2|e0 l0]| | |] eqn:PE; cbn [bind] in P; try discriminate.
        * assert (len s1 < budget) as L1 by (unfold char in *; lia).
          destruct (expr_sound LP usize_max overflow_checks budget big d s1 e0 s2 L1 PE) as (cs & T2 & _).
          assert (len s2 <= len s1) as LE by (rewrite T2, app_length; lia).
          assert (parse (Join (atom (Str [40%N])) (closure (ex d))) s = Ret (Ok (u, e0) s2)) as PJ
            by (cbn [parse Join]; unfold join_parse; cbn [parse atom closure]; rewrite PA; unfold done; cbn; now rewrite PE).
          inversion WP as [? ? NS _|? v m c0 c2 PJ' WJ WC]; subst; [exfalso; apply NS; exists (u, e0), s2; exact PJ|].
          apply is_succ in PJ'. rewrite PJ in PJ'. injection PJ' as <- <-.
          inversion WJ as [? ? NS _|? v m c3 c4 PA' WA WE]; subst; [exfalso; apply NS; exists u, s1; exact PA|].
          apply is_succ in PA'. rewrite PA in PA'. injection PA' as <- <-. unfold moves in WA, WC. rewrite PA in WA. subst c3.
          destruct (HE s1 c4 _ L1 WE PE) as [B1 B2]. rewrite !app_length.
          destruct (atom_parse (Str [41%N]) s2) as [[u' s3|e3 l3]| | |] eqn:PC; cbn [bind] in P; try discriminate; injection P as <-; subst c2; cbn [length].
          -- destruct (closing_no_space _ _ _ PC) as [NS LC]. specialize (B1 NS). unfold char in *. lia.
          -- assert (no_space (text s2) \/ ~ no_space (text s2)) as [NS|NS].
             { unfold no_space. destruct (text s2) as [|c y]; [left; discriminate|]. destruct (N.eq_dec c 32) as [->|X]; [right; intros Y; now apply (Y y)|left; congruence]. }
             ++ specialize (B1 NS). unfold char in *. lia.
             ++ specialize (B2 NS). unfold char in *. lia.
        * injection P as <-. assert (len s1 < budget) as L1 by (unfold char in *; lia).
          assert (parse (Join (atom (Str [40%N])) (closure (ex d))) s = Ret (Err (Last e0) l0)) as PJ
            by (cbn [parse Join]; unfold join_parse; cbn [parse atom closure]; rewrite PA; unfold done; cbn; now rewrite PE).
          inversion WP as [? ? NS WJ|? v m c0 c2 PJ' _ _]; subst; [|apply is_succ in PJ'; congruence].
          inversion WJ as [? ? NS' _|? v m c3 c4 PA' WA WE]; subst; [exfalso; apply NS'; exists u, s1; exact PA|].
          apply is_succ in PA'. rewrite PA in PA'. injection PA' as <- <-. unfold moves in WA. rewrite PA in WA. subst c3.
          pose proof (HE s1 c4 _ L1 WE PE) as B. cbn in B. rewrite app_length. cbn [length]. unfold char in *. lia.
      + injection P as <-.
        assert (parse (Join (atom (Str [40%N])) (closure (ex d))) s = Ret (Err (First e1) l1)) as PJ
          by (cbn [parse Join]; unfold join_parse; cbn [parse atom closure]; now rewrite PA).
        inversion WP as [? ? NS WJ|? v m c0 c2 PJ' _ _]; subst; [|apply is_succ in PJ'; congruence].
        inversion WJ as [? ? NS' WA|? v m c3 c4 PA' _ _]; subst; [|apply is_succ in PA'; congruence].
        unfold moves in WA. rewrite PA in WA. subst c1. cbn. lia.
  Qed.

  Notation pair_ d := (sequence (behaves (parse (spaced_op budget))) (behaves (tm d))).

  Lemma no_space_dec cs : no_space cs \/ ~ no_space cs.
  Proof.
    unfold no_space. destruct cs as [|c y]; [left; discriminate|].
    destruct (N.eq_dec c 32) as [->|X]; [right; intros Y; now apply (Y y)|left; congruence].
  Qed.

  Lemma chain_cost d : expr_bound d -> forall (m : S) ms,
    repetition_calls (pair_ d) (sequence_calls (behaves (parse (spaced_op budget))) wop (wterm (ex d) (wexpr d))) m ms ->
    len m < budget -> forall ps r er, many (pair_ d) m ps r -> pair_ d r (Missed er) ->
    (no_space (text r) -> length ms + 3 * len r <= 3 * len m + 2) /\ (~ no_space (text r) -> length ms <= 3 * len m + 1).
  Proof.
    intros HE m ms C. induction C as [m ms NS AC|m [o t] m1 c0 c1 P W C IH]; intros L ps r er M Miss.
    - inversion M as [s|s v m1 vs r0 P M1]; subst; [|exfalso; apply NS; exists v, m1; exact P].
      assert (exists c0, ms = c0 ++ [Back] /\ sequence_calls (behaves (parse (spaced_op budget))) wop (wterm (ex d) (wexpr d)) r c0) as (c0 & -> & W).
      { inversion AC as [? ? NM _|? c0 _ W]; subst; [exfalso; apply NM; exists er; exact Miss|]. exists c0. auto. }
      rewrite app_length. cbn [length].
      inversion Miss as [|? e0 (_ & l & PO)| | |? o0 m0 e0 PO (_ & l & PT)| |]; subst.
      + inversion W as [? ? NO WO|? o m' c1 c2 PO' _ _]; subst; [|apply is_succ in PO'; congruence].
        destruct (op_cost r c0 _ L WO PO) as [B1 B2]. split; intros X; [rewrite (B1 X)|specialize (B2 X)]; unfold char in *; lia.
      + inversion W as [? ? NO WO|? o m' c1 c2 PO' WO WT]; subst; [exfalso; apply NO; exists o0, m0; exact PO|].
        apply is_succ in PO, PO'. rewrite PO in PO'. injection PO' as <- <-.
        destruct (op_cost r c1 _ L WO PO) as [B1 B2].
        assert (len m0 < budget) as L0 by (unfold char in *; lia).
        pose proof (term_cost d HE m0 c2 _ L0 WT PT) as B. cbn in B. rewrite app_length.
        split; intros X; [|unfold char in *; lia].
        exfalso. destruct (spaced_op_sound LP budget r _ L PO) as [(o' & s' & _ & (sp & sp' & (N1 & F1) & _ & T & _) & _)|(e & l0 & E & _)]; [|discriminate].
        destruct sp as [|c sp]; [congruence|]. inversion F1; subst. eapply X. exact T.
    - inversion M as [s|s v m2 vs r0 P' M1]; subst.
      + exfalso. inversion P as [? x y z w P1 P2| | | | | |]; subst. apply is_succ in P1, P2.
        inversion Miss as [|? e0 (_ & l & PO)| | |? o0 m0 e0 PO (_ & l & PT)| |]; subst; [congruence|].
        apply is_succ in PO. rewrite P1 in PO. injection PO as <- <-. congruence.
      + inversion P as [? x k1 y r1 P1 P2| | | | | |]; subst. inversion P' as [? x' k1' y' r1' P1' P2'| | | | | |]; subst.
        apply is_succ in P1, P2, P1', P2'. rewrite P1 in P1'. injection P1' as <- <-. rewrite P2 in P2'. injection P2' as <- <-.
        inversion W as [? ? NO _|? o' m' c2 c3 PO WO WT]; subst; [exfalso; apply NO; exists o, k1; exact P1|].
        apply is_succ in PO. rewrite P1 in PO. injection PO as <- <-.
        destruct (op_cost m c2 _ L WO P1) as [B1 B2].
        assert (len k1 < budget) as L0 by (unfold char in *; lia).
        pose proof (term_cost d HE k1 c3 _ L0 WT P2) as B. cbn in B.
        destruct (IH ltac:(unfold char in *; lia) _ _ _ M1 Miss) as [B3 B4]. rewrite !app_length.
        split; intros X; [specialize (B3 X)|specialize (B4 X)]; unfold char in *; lia.
  Qed.

  Lemma expr_cost d : expr_bound d.
  Proof.
    induction d as [|d IH]; intros s ms x L W P; [discriminate|].
    rewrite (expr_parse_eq (SQ := SQ)) in P. cbn [wexpr] in W. unfold expression_calls in W.
    destruct (parse (BinExpr expr_from_term expr_from_bin usize_max overflow_checks budget (closure (tm d)) (spaced_op budget)) s)
      as [[[e er] r|e l]| | |] eqn:PB; cbn [bind] in P; try discriminate; injection P as <-.
    - destruct (bin_ok LP usize_max overflow_checks budget big d s e er r PB) as (t & m & ps & tr & PT & M & Miss & _).
      inversion W as [? ? NS _|? t' m' c0 c1 PT' WT WC]; subst; [exfalso; apply NS; exists t, m; exact PT|].
      apply is_succ in PT'. rewrite PT in PT'. injection PT' as <- <-.
      pose proof (term_cost d IH s c0 _ L WT PT) as B. cbn in B.
      assert (len m < budget) as Lm by (unfold char in *; lia).
      destruct (chain_cost d IH m c1 WC Lm ps r er M Miss) as [B1 B2]. rewrite app_length.
      split; intros X; [specialize (B1 X)|specialize (B2 X)]; unfold char in *; lia.
    - pose proof (bin_sound LR expr_from_term expr_from_bin usize_max overflow_checks (closure (tm d)) (spaced_op budget)
        (term_is_forward LP usize_max overflow_checks budget d) (spaced_op_forward LP budget) (op_in_range usize_max budget big) budget s) as BS.
      specialize (BS (Missed e)). assert (should_terminate e = false) as ST by (destruct e as [[[[]|[]]|[]]|[]]; reflexivity).
      specialize (BS (conj ST (ex_intro _ l PB)) ltac:(discriminate)).
      inversion BS as [|? e0 (_ & l0 & PT)| | | |]; subst.
      inversion W as [? ? _ WT|? t' m' c0 c1 PT' _ _]; subst; [|cbn in PT, PT'; congruence].
      exact (term_cost d IH s ms _ L WT PT).
  Qed.

  (** ** The exact number *)
  Definition extra (e : Expr) : nat := 2 * operators e + 3 * parentheses e.
  Definition extra_term (t : Term) : nat := 2 * operators_term t + 3 * parentheses_term t.
  Definition extra_pairs (ps : list (Op * Term)) : nat := fold_right (fun p n => 2 + extra_term (snd p) + n) 0 ps.

  Lemma extra_pairs_app ps qs : extra_pairs (ps ++ qs) = extra_pairs ps + extra_pairs qs.
  Proof. unfold extra_pairs. induction ps as [|p ps IH]; cbn [app fold_right]; [reflexivity|]. rewrite IH. lia. Qed.
  Lemma extra_reading (tr : ctree) : extra (cbuild tr) = extra_term (fst (reading tr)) + extra_pairs (snd (reading tr)).
  Proof.
    induction tr as [t|l IHl o r IHr]; [cbn; lia|]. cbn [reading fst snd]. rewrite extra_pairs_app.
    change (extra_pairs ((o, fst (reading r)) :: snd (reading r))) with (2 + extra_term (fst (reading r)) + extra_pairs (snd (reading r))).
    change (extra (cbuild (Node l o r))) with (2 * (operators (cbuild l) + 1 + operators (cbuild r)) + 3 * (parentheses (cbuild l) + parentheses (cbuild r))).
    unfold extra in IHl, IHr. lia.
  Qed.

  Definition expr_costs (d : nat) : Prop := forall (s : S) ms e r, len s < budget -> wexpr d s ms -> ex d s = Ret (Ok e r) ->
    no_space (text r) -> length ms + len r = len s + extra e + 2.

  Lemma term_costs d : expr_costs d -> forall (s : S) ms t r, len s < budget -> wterm (ex d) (wexpr d) s ms -> tm d s = Ret (Ok t r) ->
    length ms + len r = len s + extra_term t /\ len r <= len s.
  Proof.
    intros HE s ms t r L W P. rewrite (term_parse_eq LP) in P. unfold wterm in W.
    inversion W as [? ? NM WI|? c0 c1 MI WI WP]; subst.
    - destruct (the_char_parse 48%N s) as [[n r'|e l]| | |] eqn:PI; cbn [bind] in P; try discriminate.
      + injection P as <- <-. unfold moves in WI. rewrite PI in WI. subst. cbn [length].
        destruct (the_char_sound LP 48%N s _ PI) as [T _]. rewrite T. cbn. unfold char in *. lia.
      + exfalso. apply NM. exists e. split; [now destruct e|eauto].
    - destruct MI as (e & _ & l & PI). rewrite PI in P. cbn [bind] in P. unfold moves in WI. rewrite PI in WI. subst c0. cbn [app length mark marks_move].
      destruct (atom_parse (Str [40%N]) s) as [[u s1|e1 l1]| | |] eqn:PA; cbn [bind] in P; try discriminate.
      destruct (atom_one_sound LP 40%N s _ eq_refl PA) as [TA _].
      assert (len s = 1 + len s1) as LA by (rewrite TA; reflexivity).
      destruct (ex d s1) as [[e0 s2|e0 l0]| | |] eqn:PE; cbn [bind] in P; try discriminate.
      assert (len s1 < budget) as L1 by (unfold char in *; lia).
      destruct (expr_sound LP usize_max overflow_checks budget big d s1 e0 s2 L1 PE) as (cs & T2 & _).
      assert (len s2 <= len s1) as LE by (rewrite T2, app_length; lia).
      assert (parse (Join (atom (Str [40%N])) (closure (ex d))) s = Ret (Ok (u, e0) s2)) as PJ
        by (cbn [parse Join]; unfold join_parse; cbn [parse atom closure]; rewrite PA; unfold done; cbn; now rewrite PE).
      inversion WP as [? ? NS _|? v m c0 c2 PJ' WJ WC]; subst; [exfalso; apply NS; exists (u, e0), s2; exact PJ|].
      apply is_succ in PJ'. rewrite PJ in PJ'. injection PJ' as <- <-.
      inversion WJ as [? ? NS _|? v m c3 c4 PA' WA WE]; subst; [exfalso; apply NS; exists u, s1; exact PA|].
      apply is_succ in PA'. rewrite PA in PA'. injection PA' as <- <-. unfold moves in WA, WC. rewrite PA in WA. subst c3.
      rewrite !app_length.
      destruct (atom_parse (Str [41%N]) s2) as [[u' s3|e3 l3]| | |] eqn:PC; cbn [bind] in P; try discriminate; injection P as <- <-; subst c2; cbn [length].
      destruct (closing_no_space _ _ _ PC) as [NS LC]. pose proof (HE s1 c4 _ _ L1 WE PE NS) as B.
      change (extra_term (Parenthesized e0)) with (2 * operators e0 + 3 * (1 + parentheses e0)). unfold extra in B. unfold char in *. lia.
  Qed.

  Lemma chain_costs d : expr_costs d -> forall (m : S) ms,
    repetition_calls (pair_ d) (sequence_calls (behaves (parse (spaced_op budget))) wop (wterm (ex d) (wexpr d))) m ms ->
    len m < budget -> forall ps r er, many (pair_ d) m ps r -> pair_ d r (Missed er) -> no_space (text r) ->
    length ms + len r = len m + extra_pairs ps + 2.
  Proof.
    intros HE m ms C. induction C as [m ms NS AC|m [o t] m1 c0 c1 P W C IH]; intros L ps r er M Miss X.
    - inversion M as [s|s v m1 vs r0 P M1]; subst; [|exfalso; apply NS; exists v, m1; exact P].
      assert (exists c0, ms = c0 ++ [Back] /\ sequence_calls (behaves (parse (spaced_op budget))) wop (wterm (ex d) (wexpr d)) r c0) as (c0 & -> & W).
      { inversion AC as [? ? NM _|? c0 _ W]; subst; [exfalso; apply NM; exists er; exact Miss|]. exists c0. auto. }
      rewrite app_length. cbn [length].
      inversion Miss as [|? e0 (_ & l & PO)| | |? o0 m0 e0 PO (_ & l & PT)| |]; subst.
      + inversion W as [? ? NO WO|? o m' c1 c2 PO' _ _]; subst; [|apply is_succ in PO'; congruence].
        destruct (op_cost r c0 _ L WO PO) as [B1 _]. rewrite (B1 X). cbn. unfold char in *; lia.
      + exfalso. apply is_succ in PO.
        destruct (spaced_op_sound LP budget r _ L PO) as [(o' & s' & _ & (sp & sp' & (N1 & F1) & _ & T & _) & _)|(e & l0 & E & _)]; [|discriminate].
        destruct sp as [|c sp]; [congruence|]. inversion F1; subst. eapply X. exact T.
    - inversion M as [s|s v m2 vs r0 P' M1]; subst.
      + exfalso. inversion P as [? x y z w P1 P2| | | | | |]; subst. apply is_succ in P1, P2.
        inversion Miss as [|? e0 (_ & l & PO)| | |? o0 m0 e0 PO (_ & l & PT)| |]; subst; [congruence|].
        apply is_succ in PO. rewrite P1 in PO. injection PO as <- <-. congruence.
      + inversion P as [? x k1 y r1 P1 P2| | | | | |]; subst. inversion P' as [? x' k1' y' r1' P1' P2'| | | | | |]; subst.
        apply is_succ in P1, P2, P1', P2'. rewrite P1 in P1'. injection P1' as <- <-. rewrite P2 in P2'. injection P2' as <- <-.
        inversion W as [? ? NO _|? o' m' c2 c3 PO WO WT]; subst; [exfalso; apply NO; exists o, k1; exact P1|].
        apply is_succ in PO. rewrite P1 in PO. injection PO as <- <-.
        destruct (op_cost m c2 _ L WO P1) as [B1 B2].
        assert (len k1 < budget) as L0 by (unfold char in *; lia).
        destruct (term_costs d HE k1 c3 _ _ L0 WT P2) as [B B'].
        pose proof (IH ltac:(unfold char in *; lia) _ _ _ M1 Miss X) as B3. rewrite !app_length.
        change (extra_pairs ((o, t) :: vs)) with (2 + extra_term t + extra_pairs vs). unfold char in *; lia.
  Qed.

  Lemma expr_costs_all d : expr_costs d.
  Proof.
    induction d as [|d IH]; intros s ms x r0 L W P X; [discriminate|].
    rewrite (expr_parse_eq (SQ := SQ)) in P. cbn [wexpr] in W. unfold expression_calls in W.
    destruct (parse (BinExpr expr_from_term expr_from_bin usize_max overflow_checks budget (closure (tm d)) (spaced_op budget)) s)
      as [[[e er] r|e l]| | |] eqn:PB; cbn [bind] in P; try discriminate; injection P as <- <-.
    destruct (bin_ok LP usize_max overflow_checks budget big d s e er r PB) as (t & m & ps & tr & PT & M & Miss & R & _ & ->).
    inversion W as [? ? NS _|? t' m' c0 c1 PT' WT WC]; subst; [exfalso; apply NS; exists t, m; exact PT|].
    apply is_succ in PT'. rewrite PT in PT'. injection PT' as <- <-.
    destruct (term_costs d IH s c0 _ _ L WT PT) as [B B'].
    assert (len m < budget) as Lm by (unfold char in *; lia).
    pose proof (chain_costs d IH m c1 WC Lm ps r er M Miss X) as B1. rewrite app_length, extra_reading, R. cbn [fst snd].
    unfold char in *; lia.
  Qed.
End Work.
