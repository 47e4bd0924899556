(** * P_Calls: which parsers are called, property C86. *)
From Verif Require Import L_Base L_Comb L_BinExpr L_Seq S_Calls P_Comb P_BinExpr.
Import M_BinExpr M_Iter.

Section Calls.
  Context {S A L : Type} {RS : RewindSequence S A} {MK : Marks S L} {reach : S -> S -> Prop} (law : lawful_rewind reach).

  (** What the second run finds after a failure of the first. *)
  Lemma logged_rewind s h m h' : reach s m ->
    @rewind (S * list L) A rewind_logged (m, h') (@anchor (S * list L) A rewind_logged (s, h)) = Ret (s, h' ++ mark s).
  Proof. intros R. cbn. now rewrite (rewind_anchor law _ _ R). Qed.

  Section Or.
    Context {O0 E0 O1 E1 : Type} `{ParseError E0} `{ParseError E1}.
    Variables (w0 w1 : record_of S L).
    Lemma or_tells (p0 : dparser S O0 E0) (p1 : dparser S O1 E1) (q0 : dparser (S * list L) O0 E0) (q1 : dparser (S * list L) O1 E1) :
      forward reach (parse p0) -> tells (parse p0) w0 (parse q0) -> tells (parse p1) w1 (parse q1) ->
      tells (or_parse p0 p1) (choice_calls (behaves (parse p0)) w0 w1) (or_parse q0 q1).
    Proof.
      intros F T0 T1 s h. unfold or_parse. specialize (T0 s h).
      destruct (parse p0 s) as [[o m|e m]| | |] eqn:P0; [destruct T0 as (c0 & W0 & Q0)|destruct T0 as (c0 & W0 & Q0)|now rewrite T0..];
        cbn [bind] in *.
      - rewrite Q0. cbn. exists c0. split; [|reflexivity]. apply cc_one; [|exact W0]. intros (e & _ & l & X). congruence.
      - rewrite Q0. cbn [bind logged]. destruct (should_terminate e) eqn:ST; cbn [negb].
        + exists c0. split; [|reflexivity]. apply cc_one; [|exact W0]. intros (e' & X & l & Y). congruence.
        + rewrite logged_rewind by exact (F _ _ P0). rewrite (rewind_anchor law s m (F _ _ P0)). cbn [bind]. specialize (T1 s ((h ++ c0) ++ mark s)).
          assert (misses (behaves (parse p0)) s) as M by (exists e; split; eauto).
          destruct (parse p1 s) as [[o1 m1|e1 m1]| | |] eqn:P1;
            [destruct T1 as (c1 & W1 & Q1)|destruct T1 as (c1 & W1 & Q1)|now rewrite T1..]; cbn [bind]; rewrite Q1; cbn [bind logged].
          * exists (c0 ++ mark s ++ c1). split; [|unfold done; cbn; now rewrite !app_assoc]. now apply cc_two.
          * destruct (negb _); exists (c0 ++ mark s ++ c1); (split; [now apply cc_two|unfold fail; cbn; now rewrite !app_assoc]).
    Qed.
  End Or.

  Section Join.
    Context {O0 E0 O1 E1 : Type} `{ParseError E0}.
    Variables (w0 w1 : record_of S L).
    Lemma join_tells (p0 : dparser S O0 E0) (p1 : dparser S O1 E1) (q0 : dparser (S * list L) O0 E0) (q1 : dparser (S * list L) O1 E1) :
      tells (parse p0) w0 (parse q0) -> tells (parse p1) w1 (parse q1) ->
      tells (join_parse p0 p1) (sequence_calls (behaves (parse p0)) w0 w1) (join_parse q0 q1).
    Proof.
      intros T0 T1 s h. unfold join_parse. specialize (T0 s h).
      destruct (parse p0 s) as [[o m|e m]| | |] eqn:P0; [destruct T0 as (c0 & W0 & Q0)|destruct T0 as (c0 & W0 & Q0)|now rewrite T0..];
        cbn [bind] in *; rewrite Q0; cbn [bind logged].
      - specialize (T1 m (h ++ c0)).
        destruct (parse p1 m) as [[o1 m1|e1 m1]| | |] eqn:P1;
          [destruct T1 as (c1 & W1 & Q1)|destruct T1 as (c1 & W1 & Q1)|now rewrite T1..]; cbn [bind]; rewrite Q1; cbn [bind logged];
          exists (c0 ++ c1); (split; [eapply sc_two; eauto; exact P0|unfold done, fail; cbn; now rewrite app_assoc]).
      - exists c0. split; [|reflexivity]. apply sc_one; [|exact W0]. intros (o & r & X). cbn in X. congruence.
    Qed.
  End Join.

  (** A parser that calls one parser once and then only changes the answer. *)
  Definition changes {S' O E O' E'} (f : pfun S' O E) (on : res S' O E -> res S' O' E') (g : pfun S' O' E') : Prop :=
    forall s, g s = (r <- f s ;; Ret (on r)).
  Lemma changes_tells {O E O' E'} (f : pfun S O E) w (f' : pfun (S * list L) O E) on on' (g : pfun S O' E') (g' : pfun (S * list L) O' E') :
    tells f w f' -> changes f on g -> changes f' on' g' -> (forall h r, on' (logged h r) = logged h (on r)) -> tells g w g'.
  Proof.
    intros T C C' ON s h. specialize (T s h). rewrite (C s), (C' (s, h)).
    destruct (f s) as [r| | |]; [destruct T as (cs & W & Q)|now rewrite T..]. rewrite Q. cbn [bind]. rewrite ON. eauto.
  Qed.

  Definition map_on {S' O E U} (f : O -> U) (r : res S' O E) : res S' U E :=
    match r with Ok o s => Ok (f o) s | Err e s => Err e s end.
  Definition map_err_on {S' O E U} (f : E -> U) (r : res S' O E) : res S' O U :=
    match r with Ok o s => Ok o s | Err e s => Err (f e) s end.
  Definition and_then_on {S' O E O' E'} (from : E -> E') (f : O -> result O' E') (r : res S' O E) : res S' O' E' :=
    match r with Ok o s => match f o with ROk o' => Ok o' s | RErr e => Err e s end | Err e s => Err (from e) s end.

  Section Optional.
    Context {O E : Type} `{ParseError E}.
    Variable w : record_of S L.
    Lemma optional_tells (p : dparser S O E) (q : dparser (S * list L) O E) : forward reach (parse p) ->
      tells (parse p) w (parse q) -> tells (optional_parse p) (attempt_calls (behaves (parse p)) w) (optional_parse q).
    Proof.
      intros F T s h. unfold optional_parse. specialize (T s h).
      destruct (parse p s) as [[o m|e m]| | |] eqn:P; [destruct T as (c & W & Q)|destruct T as (c & W & Q)|now rewrite T..];
        cbn [bind] in *; rewrite Q; cbn [bind logged].
      - exists c. split; [|reflexivity]. apply ac_other; [|exact W]. intros (e & _ & l & X). congruence.
      - destruct (should_terminate e) eqn:ST; cbn [negb].
        { exists c. split; [|reflexivity]. apply ac_other; [|exact W]. intros (e' & X & l & Y). congruence. }
        rewrite logged_rewind by exact (F _ _ P). rewrite (rewind_anchor law s m (F _ _ P)).
        exists (c ++ mark s). split; [|unfold done; cbn; now rewrite app_assoc]. apply ac_missed; [exists e; split; eauto|exact W].
    Qed.

    Lemma repeat_tells (p : dparser S O E) (q : dparser (S * list L) O E) : forward reach (parse p) ->
      tells (parse p) w (parse q) -> forall fuel buf,
      tells (repeat_loop fuel p buf) (repetition_calls (behaves (parse p)) w) (repeat_loop fuel q buf).
    Proof.
      intros F T. induction fuel as [|fuel IH]; intros buf s h; [reflexivity|]. cbn [repeat_loop]. specialize (T s h).
      destruct (parse p s) as [[o m|e m]| | |] eqn:P; [destruct T as (c & W & Q)|destruct T as (c & W & Q)|now rewrite T..];
        cbn [bind] in *; rewrite Q; cbn [bind logged].
      - specialize (IH (buf ++ [o]) m (h ++ c)). destruct (repeat_loop fuel p (buf ++ [o]) m) as [r| | |]; [|exact IH..].
        destruct IH as (c1 & W1 & Q1). exists (c ++ c1). split; [eapply rc_more; eauto; exact P|]. now rewrite Q1, app_assoc.
      - assert (~ succeeds (behaves (parse p)) s) as NS by (intros (o & r & X); cbn in X; congruence).
        destruct (should_terminate e) eqn:ST.
        { exists c. split; [|reflexivity]. apply rc_last; [exact NS|]. apply ac_other; [|exact W]. intros (e' & X & l & Y). congruence. }
        rewrite logged_rewind by exact (F _ _ P). rewrite (rewind_anchor law s m (F _ _ P)).
        exists (c ++ mark s). split; [|unfold done; cbn; now rewrite app_assoc].
        apply rc_last; [exact NS|]. apply ac_missed; [exists e; split; eauto|exact W].
    Qed.
  End Optional.

  Section Expression.
    Context {T TE Op OE Expr : Type} `{ParseError TE} `{ParseError OE} `{Operator Op}.
    Variables (from_term : T -> Expr) (from_bin : Expr -> Op -> Expr -> Expr) (usize_max : nat) (overflow_checks : bool).
    Variables (wt wo : record_of S L) (term : dparser S T TE) (op : dparser S Op OE)
      (term' : dparser (S * list L) T TE) (op' : dparser (S * list L) Op OE).
    Hypotheses (Ft : forward reach (parse term)) (Fo : forward reach (parse op)).
    Hypotheses (Tt : tells (parse term) wt (parse term')) (To : tells (parse op) wo (parse op')).
    Notation pair_ := (sequence (behaves (parse op)) (behaves (parse term))).
    Notation pair_calls := (sequence_calls (behaves (parse op)) wo wt).

    Lemma bin_loop_tells fuel : forall stack rhs,
      tells (bin_loop from_term from_bin usize_max overflow_checks fuel term op 0 stack rhs) (repetition_calls pair_ pair_calls)
        (bin_loop from_term from_bin usize_max overflow_checks fuel term' op' 0 stack rhs).
    Proof.
      induction fuel as [|fuel IH]; intros stack rhs s h; [reflexivity|]. cbn [bin_loop Nat.leb]. pose proof (To s h) as X.
      destruct (parse op s) as [[o m|e m]| | |] eqn:PO; [destruct X as (c & W & Q)|destruct X as (c & W & Q)|now rewrite X..];
        cbn [bind] in *; rewrite Q; cbn [bind logged].
      - pose proof (Tt m (h ++ c)) as X.
        destruct (parse term m) as [[t r|e r]| | |] eqn:PT; [destruct X as (c1 & W1 & Q1)|destruct X as (c1 & W1 & Q1)|now rewrite X..];
          cbn [bind] in *; rewrite Q1; cbn [bind logged].
        + destruct (insert_loop _ _ _ _ _ _ _) as [[stack' rhs']| | |]; [cbn [bind]|reflexivity..].
          specialize (IH stack' rhs' r ((h ++ c) ++ c1)).
          destruct (bin_loop _ _ _ _ _ _ _ _ _ _ _) as [x| | |]; [|exact IH..].
          destruct IH as (c2 & W2 & Q2). exists ((c ++ c1) ++ c2). split; [|now rewrite Q2, !app_assoc].
          eapply rc_more; [eapply sq_ok; [exact PO|exact PT]|eapply sc_two; eauto; exact PO|exact W2].
        + assert (~ succeeds pair_ s) as NS.
          { intros (o1 & r1 & X). inversion X as [? x0 m0 y0 r0 H3 H4| | | | | |]; subst.
            cbn in H3, H4. rewrite PO in H3. injection H3 as <- <-. congruence. }
          assert (pair_calls s (c ++ c1)) as PC by (eapply sc_two; eauto; exact PO).
          destruct (should_terminate e) eqn:ST; cbn [negb].
          { exists (c ++ c1). split; [|unfold fail; cbn; now rewrite app_assoc]. apply rc_last; [exact NS|]. apply ac_other; [|exact PC].
            intros (e' & X). inversion X as [|? e0 (SE & l & Y)| | |? x0 m0 e0 Y (SE & l & Z)| |]; subst; cbn in Y; rewrite PO in Y; [discriminate|].
            injection Y as <- <-. congruence. }
          assert (reach s r) as R by (eapply (reach_trans law); [exact (Fo _ _ PO)|exact (Ft _ _ PT)]).
          rewrite logged_rewind by exact R. rewrite (rewind_anchor law _ _ R).
          exists ((c ++ c1) ++ mark s). split; [|unfold done; cbn; now rewrite !app_assoc].
          apply rc_last; [exact NS|]. apply ac_missed; [|exact PC]. exists (Last e). eapply sq_miss2; [exact PO|split; eauto].
      - assert (~ succeeds pair_ s) as NS.
        { intros (o1 & r1 & X). inversion X as [? x0 m0 y0 r0 H3 H4| | | | | |]; subst. cbn in H3. congruence. }
        assert (pair_calls s c) as PC by (apply sc_one; [intros (o1 & r1 & X); cbn in X; congruence|exact W]).
        destruct (should_terminate e) eqn:ST.
        { exists c. split; [|reflexivity]. apply rc_last; [exact NS|]. apply ac_other; [|exact PC].
          intros (e' & X). inversion X as [|? e0 (SE & l & Y)| | |? x0 m0 e0 Y (SE & l & Z)| |]; subst; cbn in Y; congruence. }
        rewrite logged_rewind by exact (Fo _ _ PO). rewrite (rewind_anchor law s m (Fo _ _ PO)).
        exists (c ++ mark s). split; [|unfold done; cbn; now rewrite app_assoc].
        apply rc_last; [exact NS|]. apply ac_missed; [|exact PC]. exists (First e). apply sq_miss1. split; eauto.
    Qed.

    Lemma bin_tells fuel :
      tells (bin_expr_parse from_term from_bin usize_max overflow_checks fuel term op)
        (expression_calls (behaves (parse term)) (behaves (parse op)) wt wo)
        (bin_expr_parse from_term from_bin usize_max overflow_checks fuel term' op').
    Proof.
      intros s h. unfold bin_expr_parse, parse_impl. pose proof (Tt s h) as X.
      destruct (parse term s) as [[t m|e m]| | |] eqn:PT; [destruct X as (c & W & Q)|destruct X as (c & W & Q)|now rewrite X..];
        cbn [bind] in *; rewrite Q; cbn [bind logged].
      - pose proof (bin_loop_tells fuel [] (from_term t) m (h ++ c)) as B.
        destruct (bin_loop _ _ _ _ _ _ _ _ _ _ _) as [[[x [r1|r1]] r|e r]| | |]; try (now rewrite B);
          destruct B as (c1 & W1 & Q1); rewrite Q1; cbn [bind logged]; try reflexivity;
          exists (c ++ c1); (split; [eapply sc_two; eauto; exact PT|unfold done, fail; cbn; now rewrite app_assoc]).
      - exists c. split; [|reflexivity]. apply sc_one; [|exact W]. intros (o1 & r1 & X). cbn in X. congruence.
    Qed.
  End Expression.
End Calls.

(** ** The combinators *)
Section Combinators.
  Context {S A L : Type} {RS : RewindSequence S A} {MK : Marks S L} {reach : S -> S -> Prop} (law : lawful_rewind reach).

  Theorem C86_or {O0 E0 O1 E1} `{ParseError E0} `{ParseError E1} (w0 w1 : record_of S L)
    (p0 : dparser S O0 E0) (p1 : dparser S O1 E1) (q0 : dparser (S * list L) O0 E0) (q1 : dparser (S * list L) O1 E1) :
    forward reach (parse p0) -> forward reach (parse_once p0) -> tells_both p0 w0 q0 -> tells_both p1 w1 q1 ->
    tells (parse (Or p0 p1)) (choice_calls (behaves (parse p0)) w0 w1) (parse (Or q0 q1)) /\
    tells (parse_once (Or p0 p1)) (choice_calls (behaves (parse_once p0)) w0 w1) (parse_once (Or q0 q1)).
  Proof.
    intros F F' (T0 & T0') (T1 & T1'). split; [exact (or_tells law w0 w1 p0 p1 q0 q1 F T0 T1)|].
    exact (or_tells law w0 w1 (closure (parse_once p0)) (closure (parse_once p1)) (closure (parse_once q0)) (closure (parse_once q1)) F' T0' T1').
  Qed.

  Theorem C86_join {O0 E0 O1 E1} `{ParseError E0} (w0 w1 : record_of S L)
    (p0 : dparser S O0 E0) (p1 : dparser S O1 E1) (q0 : dparser (S * list L) O0 E0) (q1 : dparser (S * list L) O1 E1) :
    tells_both p0 w0 q0 -> tells_both p1 w1 q1 ->
    tells (parse (Join p0 p1)) (sequence_calls (behaves (parse p0)) w0 w1) (parse (Join q0 q1)) /\
    tells (parse_once (Join p0 p1)) (sequence_calls (behaves (parse_once p0)) w0 w1) (parse_once (Join q0 q1)).
  Proof.
    intros (T0 & T0') (T1 & T1'). split; [exact (join_tells w0 w1 p0 p1 q0 q1 T0 T1)|].
    exact (join_tells w0 w1 (closure (parse_once p0)) (closure (parse_once p1)) (closure (parse_once q0)) (closure (parse_once q1)) T0' T1').
  Qed.

  (** These call their parser once, where they are called themselves. *)
  Theorem C86_one_call {O E} (w : record_of S L) (p : dparser S O E) (q : dparser (S * list L) O E) : tells_both p w q ->
    (forall U (f : O -> U), tells_both (Map p f) w (Map q f)) /\
    (forall U (f : E -> U), tells_both (MapErr p f) w (MapErr q f)) /\
    (forall O' E' (from : E -> E') (f : O -> result O' E'), tells_both (AndThen from p f) w (AndThen from q f)) /\
    tells_both (Ref p) w (Ref q) /\ tells_both (Boxed p) w (Boxed q).
  Proof.
    intros (T & T'). repeat split; try assumption.
    - apply (changes_tells (parse p) w (parse q) (map_on f) (map_on f)); [exact T|now intros s; cbn; unfold map_parse; destruct (parse p s) as [[]| | |]|
        now intros s; cbn; unfold map_parse; destruct (parse q s) as [[]| | |]|now intros h []].
    - apply (changes_tells (parse_once p) w (parse_once q) (map_on f) (map_on f)); [exact T'|now intros s; cbn; unfold map_parse_once; destruct (parse_once p s) as [[]| | |]|
        now intros s; cbn; unfold map_parse_once; destruct (parse_once q s) as [[]| | |]|now intros h []].
    - apply (changes_tells (parse p) w (parse q) (map_err_on f) (map_err_on f)); [exact T|now intros s; cbn; unfold map_err_parse; destruct (parse p s) as [[]| | |]|
        now intros s; cbn; unfold map_err_parse; destruct (parse q s) as [[]| | |]|now intros h []].
    - apply (changes_tells (parse_once p) w (parse_once q) (map_err_on f) (map_err_on f)); [exact T'|now intros s; cbn; unfold map_err_parse_once; destruct (parse_once p s) as [[]| | |]|
        now intros s; cbn; unfold map_err_parse_once; destruct (parse_once q s) as [[]| | |]|now intros h []].
    - apply (changes_tells (parse p) w (parse q) (and_then_on from f) (and_then_on from f)); [exact T|
        now intros s; cbn; unfold and_then_parse; destruct (parse p s) as [[o r|]| | |]; cbn; [destruct (f o)| ..]|
        now intros s; cbn; unfold and_then_parse; destruct (parse q s) as [[o r|]| | |]; cbn; [destruct (f o)| ..]|
        now intros h [o r|]; cbn; [destruct (f o)|]].
    - apply (changes_tells (parse_once p) w (parse_once q) (and_then_on from f) (and_then_on from f)); [exact T'|
        now intros s; cbn; unfold and_then_parse_once; destruct (parse_once p s) as [[o r|]| | |]; cbn; [destruct (f o)| ..]|
        now intros s; cbn; unfold and_then_parse_once; destruct (parse_once q s) as [[o r|]| | |]; cbn; [destruct (f o)| ..]|
        now intros h [o r|]; cbn; [destruct (f o)|]].
  Qed.

  Theorem C86_unify {O E T0 T1 T} (i0 : T0 -> T) (i1 : T1 -> T) (w : record_of S L) :
    (forall (p : dparser S (Either T0 T1) E) q, tells_both p w q -> tells_both (Unify i0 i1 p) w (Unify i0 i1 q)) /\
    (forall (p : dparser S O (Either T0 T1)) q, tells_both p w q -> tells_both (UnifyErr i0 i1 p) w (UnifyErr i0 i1 q)).
  Proof.
    split; intros p q (P & P'); split.
    - apply (changes_tells (parse p) w (parse q) (map_on (either_unify i0 i1)) (map_on (either_unify i0 i1))); [exact P|
        now intros s; cbn; unfold unify_parse; destruct (parse p s) as [[]| | |]|
        now intros s; cbn; unfold unify_parse; destruct (parse q s) as [[]| | |]|now intros h []].
    - apply (changes_tells (parse_once p) w (parse_once q) (map_on (either_unify i0 i1)) (map_on (either_unify i0 i1))); [exact P'|
        now intros s; cbn; unfold unify_parse_once; destruct (parse_once p s) as [[[]|]| | |]|
        now intros s; cbn; unfold unify_parse_once; destruct (parse_once q s) as [[[]|]| | |]|now intros h []].
    - apply (changes_tells (parse p) w (parse q) (map_err_on (either_unify i0 i1)) (map_err_on (either_unify i0 i1))); [exact P|
        now intros s; cbn; unfold unify_err_parse; destruct (parse p s) as [[]| | |]|
        now intros s; cbn; unfold unify_err_parse; destruct (parse q s) as [[]| | |]|now intros h []].
    - apply (changes_tells (parse_once p) w (parse_once q) (map_err_on (either_unify i0 i1)) (map_err_on (either_unify i0 i1))); [exact P'|
        now intros s; cbn; unfold unify_err_parse_once; destruct (parse_once p s) as [[|[]]| | |]|
        now intros s; cbn; unfold unify_err_parse_once; destruct (parse_once q s) as [[|[]]| | |]|now intros h []].
  Qed.

  Theorem C86_optional {O E} `{ParseError E} (w : record_of S L) (p : dparser S O E) (q : dparser (S * list L) O E) :
    forward reach (parse p) -> forward reach (parse_once p) -> tells_both p w q ->
    tells (parse (Optional p)) (attempt_calls (behaves (parse p)) w) (parse (Optional q)) /\
    tells (parse_once (Optional p)) (attempt_calls (behaves (parse_once p)) w) (parse_once (Optional q)).
  Proof.
    intros F F' (T & T'). split; [exact (optional_tells law w p q F T)|].
    exact (optional_tells law w (closure (parse_once p)) (closure (parse_once q)) F' T').
  Qed.

  Theorem C86_repeat {O E} `{ParseError E} (w : record_of S L) (p : dparser S O E) (q : dparser (S * list L) O E) fuel :
    forward reach (parse p) -> tells (parse p) w (parse q) ->
    tells_both (Repeat fuel p) (repetition_calls (behaves (parse p)) w) (Repeat fuel q).
  Proof. intros F T. split; exact (repeat_tells law w p q F T fuel []). Qed.

  Theorem C86_bin_expr {T TE Op OE Expr} `{ParseError TE} `{ParseError OE} `{Operator Op}
    (from_term : T -> Expr) (from_bin : Expr -> Op -> Expr -> Expr) usize_max overflow_checks fuel
    (wt wo : record_of S L) (term : dparser S T TE) (op : dparser S Op OE) term' op' :
    forward reach (parse term) -> forward reach (parse op) -> tells (parse term) wt (parse term') -> tells (parse op) wo (parse op') ->
    tells_both (BinExpr from_term from_bin usize_max overflow_checks fuel term op)
      (expression_calls (behaves (parse term)) (behaves (parse op)) wt wo)
      (BinExpr from_term from_bin usize_max overflow_checks fuel term' op').
  Proof. intros Ft Fo Tt To. split; exact (bin_tells law from_term from_bin usize_max overflow_checks wt wo term op term' op' Ft Fo Tt To fuel). Qed.

  (** A parser that is watched. *)
  Theorem C86_noted {N O E} (n : N) (p : dparser S O E) : tells_both p (once n) (noted n p).
  Proof. split; intros s h; cbn; [destruct (parse p s)|destruct (parse_once p s)]; try reflexivity; eexists; split; reflexivity. Qed.
End Combinators.

(** ** The iterative parsers *)
Section Iterative.
  Context {S A L : Type} {RS : RewindSequence S A} {MK : Marks S L} {reach : S -> S -> Prop} (law : lawful_rewind reach).

  (** An iterative parser that makes one call of another per call of its own, or none. *)
  Theorem C86_optional_iterative {O E} `{ParseError E} (w : record_of S L) (p : dparser S O E) (q : dparser (S * list L) O E) :
    forward reach (parse p) -> forward reach (parse_once p) -> tells_both p w q ->
    let w' (a : behaviour S O E) (me : bool) := if me then attempt_calls a w else fun _ cs => cs = [] in
    tells_iter (parse_iterative (OptionalIter p)) (w' (behaves (parse p))) (parse_iterative (OptionalIter q)) /\
    tells_iter (parse_iterative_once (OptionalIter p)) (w' (behaves (parse_once p))) (parse_iterative_once (OptionalIter q)).
  Proof.
    intros F F' (T & T') w'. split; (split; [reflexivity|]); intros me s h; destruct me; cbn [parse_iterative parse_iterative_once OptionalIter it_next].
    - unfold optional_next. cbn [negb]. specialize (T s h).
      destruct (parse p s) as [[o m|e m]| | |] eqn:P; [destruct T as (c & W & Q)|destruct T as (c & W & Q)|now rewrite T..];
        cbn [bind] in *; rewrite Q; cbn [bind logged].
      { exists c. split; [|reflexivity]. apply ac_other; [|exact W]. intros (e & _ & l & X). congruence. }
      destruct (should_terminate e) eqn:ST.
      { exists c. split; [|reflexivity]. apply ac_other; [|exact W]. intros (e' & X & l & Y). congruence. }
      rewrite (logged_rewind law) by exact (F _ _ P). rewrite (rewind_anchor law s m (F _ _ P)).
      exists (c ++ mark s). split; [|unfold done; cbn; now rewrite app_assoc]. apply ac_missed; [exists e; split; eauto|exact W].
    - exists []. now rewrite app_nil_r.
    - unfold optional_next_once. cbn [negb]. specialize (T' s h).
      destruct (parse_once p s) as [[o m|e m]| | |] eqn:P; [destruct T' as (c & W & Q)|destruct T' as (c & W & Q)|now rewrite T'..];
        cbn [bind] in *; rewrite Q; cbn [bind logged].
      { exists c. split; [|reflexivity]. apply ac_other; [|exact W]. intros (e & _ & l & X). congruence. }
      destruct (should_terminate e) eqn:ST.
      { exists c. split; [|reflexivity]. apply ac_other; [|exact W]. intros (e' & X & l & Y). congruence. }
      rewrite (logged_rewind law) by exact (F' _ _ P). rewrite (rewind_anchor law s m (F' _ _ P)).
      exists (c ++ mark s). split; [|unfold done; cbn; now rewrite app_assoc]. apply ac_missed; [exists e; split; eauto|exact W].
    - exists []. now rewrite app_nil_r.
  Qed.

  Theorem C86_repeat_iterative {O E} `{ParseError E} (w : record_of S L) (p : dparser S O E) (q : dparser (S * list L) O E) :
    forward reach (parse p) -> tells (parse p) w (parse q) ->
    let w' (_ : unit) := attempt_calls (behaves (parse p)) w in
    tells_iter (parse_iterative (RepeatIter p)) w' (parse_iterative (RepeatIter q)) /\
    tells_iter (parse_iterative_once (RepeatIter p)) w' (parse_iterative_once (RepeatIter q)).
  Proof.
    intros F T w'. assert (tells_iter (IT tt (repeat_next p)) w' (IT tt (repeat_next q))) as X.
    { split; [reflexivity|]. intros me s h. cbn [it_next]. unfold repeat_next. specialize (T s h).
      destruct (parse p s) as [[o m|e m]| | |] eqn:P; [destruct T as (c & W & Q)|destruct T as (c & W & Q)|now rewrite T..];
        cbn [bind] in *; rewrite Q; cbn [bind logged].
      { exists c. split; [|reflexivity]. apply ac_other; [|exact W]. intros (e & _ & l & X). congruence. }
      destruct (should_terminate e) eqn:ST.
      { exists c. split; [|reflexivity]. apply ac_other; [|exact W]. intros (e' & X & l & Y). congruence. }
      rewrite (logged_rewind law) by exact (F _ _ P). rewrite (rewind_anchor law s m (F _ _ P)).
      exists (c ++ mark s). split; [|unfold done; cbn; now rewrite app_assoc]. apply ac_missed; [exists e; split; eauto|exact W]. }
    split; exact X.
  Qed.

  Section Session.
    Context {St O E : Type} (w : St -> record_of S L) (p : iter St S O E) (q : iter St (S * list L) O E).
    Hypothesis T : tells_iter p w q.

    Ltac ask st s h :=
      let X := fresh "X" in let Q := fresh "Q" in pose proof (proj2 T st s h) as X;
      destruct (it_next p st s) as [[? [[?|] ?|? ?]]| | |];
      [destruct X as (? & ? & Q)|destruct X as (? & ? & Q)|destruct X as (? & ? & Q)|now rewrite X..]; rewrite Q; cbn [bind logged].

    Lemma map_each_tells {U} (f : O -> U) :
      tells_iter (IT (it_init p) (map_each_next p f)) w (IT (it_init q) (map_each_next q f)).
    Proof. split; [apply T|]. intros st s h. cbn. unfold map_each_next. ask st s h; cbn; eauto. Qed.
    Lemma map_while_tells {U} (f : O -> option U) :
      tells_iter (IT (it_init p) (map_while_next p f)) w (IT (it_init q) (map_while_next q f)).
    Proof. split; [apply T|]. intros st s h. cbn. unfold map_while_next. ask st s h; cbn; eauto. Qed.
    Lemma try_map_each_tells {U E'} `{ParseError E'} (from : E -> E') (f : O -> result U E') :
      tells_iter (IT (it_init p) (try_map_each_next from p f)) w (IT (it_init q) (try_map_each_next from q f)).
    Proof.
      split; [apply T|]. intros st s h. cbn. unfold try_map_each_next. ask st s h; cbn; eauto.
      match goal with |- context [f ?o] => destruct (f o) end; [|destruct (should_terminate _)]; cbn; eauto.
    Qed.
    Lemma scan_tells {U St2} (i : St2) (f : St2 -> O -> St2 * U) :
      tells_iter (IT (it_init p, i) (scan_next p f)) (fun st => w (fst st)) (IT (it_init q, i) (scan_next q f)).
    Proof.
      split; [cbn; f_equal; apply T|]. intros [st st2] s h. cbn. ask st s h; cbn; eauto. match goal with |- context [f st2 ?o] => destruct (f st2 o) end. cbn. eauto.
    Qed.
    Lemma take_tells n :
      tells_iter (IT (it_init p, n) (take_next p)) (fun st => if snd st =? 0 then fun _ cs => cs = [] else w (fst st)) (IT (it_init q, n) (take_next q)).
    Proof.
      split; [cbn; f_equal; apply T|]. intros [st lft] s h. cbn [it_next take_next fst snd].
      destruct (lft =? 0); [exists []; now rewrite app_nil_r|]. ask st s h; cbn; eauto.
    Qed.

    Lemma fold_tells {Acc} (f : Acc -> O -> Acc) fuel : forall st acc,
      tells (fold_loop fuel p f st acc) (run_calls (fun _ => []) p w st) (fold_loop fuel q f st acc).
    Proof.
      induction fuel as [|fuel IH]; intros st acc s h; [reflexivity|]. cbn [fold_loop].
      pose proof (proj2 T st s h) as X. destruct (it_next p st s) as [[st' [[o|] m|e m]]| | |] eqn:P;
        [destruct X as (c & W & Q)|destruct X as (c & W & Q)|destruct X as (c & W & Q)|now rewrite X..]; rewrite Q; cbn [bind logged].
      - specialize (IH st' (f acc o) m (h ++ c)). destruct (fold_loop fuel p f st' (f acc o) m) as [r| | |]; [|exact IH..].
        destruct IH as (c1 & W1 & Q1). exists (c ++ c1). split; [eapply run_more; eauto|]. now rewrite Q1, app_assoc.
      - exists (c ++ []). split; [|now rewrite app_nil_r]. apply (run_last (fun _ => [])); [congruence|exact W].
      - exists (c ++ []). split; [|now rewrite app_nil_r]. apply (run_last (fun _ => [])); [congruence|exact W].
    Qed.

    Lemma collect_tells {C} (ext : C -> O -> C) fuel : forward_iter reach p -> forall st acc,
      tells (collect_loop ext fuel p st acc) (run_calls mark p w st) (collect_loop ext fuel q st acc).
    Proof.
      intros F. induction fuel as [|fuel IH]; intros st acc s h; [reflexivity|]. cbn [collect_loop].
      pose proof (proj2 T st s h) as X. destruct (it_next p st s) as [[st' [[o|] m|e m]]| | |] eqn:P;
        [destruct X as (c & W & Q)|destruct X as (c & W & Q)|destruct X as (c & W & Q)|now rewrite X..]; rewrite Q; cbn [bind logged].
      - specialize (IH st' (ext acc o) m (h ++ c)). destruct (collect_loop ext fuel p st' (ext acc o) m) as [r| | |]; [|exact IH..].
        destruct IH as (c1 & W1 & Q1). exists (c ++ c1). split; [eapply run_more; eauto|]. now rewrite Q1, app_assoc.
      - rewrite (logged_rewind law) by exact (F _ _ _ _ P). rewrite (rewind_anchor law s m (F _ _ _ _ P)).
        exists (c ++ mark s). split; [|unfold done, fail; cbn; now rewrite app_assoc]. apply run_last; [congruence|exact W].
      - rewrite (logged_rewind law) by exact (F _ _ _ _ P). rewrite (rewind_anchor law s m (F _ _ _ _ P)).
        exists (c ++ mark s). split; [|unfold done, fail; cbn; now rewrite app_assoc]. apply run_last; [congruence|exact W].
    Qed.
  End Session.

  Definition tells_sessions {St O E} (p : diter St S O E) (w : St -> record_of S L) (q : diter St (S * list L) O E) : Prop :=
    tells_iter (parse_iterative p) w (parse_iterative q) /\ tells_iter (parse_iterative_once p) w (parse_iterative_once q).

  Theorem C86_sessions {St O E} (p : diter St S O E) w (q : diter St (S * list L) O E) : tells_sessions p w q ->
    (forall U (f : O -> U), tells_sessions (MapEach p f) w (MapEach q f)) /\
    (forall U (f : O -> option U), tells_sessions (MapWhile p f) w (MapWhile q f)) /\
    (forall U E' `{ParseError E'} (from : E -> E') (f : O -> result U E'), tells_sessions (TryMapEach from p f) w (TryMapEach from q f)) /\
    (forall U St2 (i : St2) (f : St2 -> O -> St2 * U), tells_sessions (Scan p i f) (fun st => w (fst st)) (Scan q i f)) /\
    (forall n, tells_sessions (Take p n) (fun st => if snd st =? 0 then fun _ cs => cs = [] else w (fst st)) (Take q n)).
  Proof.
    intros (T & T'). split; [intros; split; now apply map_each_tells|]. split; [intros; split; now apply map_while_tells|].
    split; [intros; split; now apply try_map_each_tells|]. split; [intros; split; now apply scan_tells|].
    intros; split; now apply take_tells.
  Qed.

  Theorem C86_fold {St O E Acc} (p : diter St S O E) w (q : diter St (S * list L) O E) (f : Acc -> O -> Acc) i fuel : tells_sessions p w q ->
    tells (parse (Fold fuel p i f)) (run_calls (fun _ => []) (parse_iterative p) w (it_init (parse_iterative p))) (parse (Fold fuel q i f)) /\
    tells (parse_once (Fold fuel p i f)) (run_calls (fun _ => []) (parse_iterative_once p) w (it_init (parse_iterative_once p))) (parse_once (Fold fuel q i f)).
  Proof.
    intros (T & T'). cbn. split.
    - intros s h. pose proof (fold_tells w _ _ T f fuel (it_init (parse_iterative p)) i s h) as X. now rewrite <- (proj1 T).
    - intros s h. pose proof (fold_tells w _ _ T' f fuel (it_init (parse_iterative_once p)) i s h) as X. now rewrite <- (proj1 T').
  Qed.

  Theorem C86_collect {St O E C} (p : diter St S O E) w (q : diter St (S * list L) O E) (d : C) (ext : C -> O -> C) fuel :
    forward_iter reach (parse_iterative p) -> forward_iter reach (parse_iterative_once p) -> tells_sessions p w q ->
    tells (parse (Collect d ext fuel p)) (run_calls mark (parse_iterative p) w (it_init (parse_iterative p))) (parse (Collect d ext fuel q)) /\
    tells (parse_once (Collect d ext fuel p)) (run_calls mark (parse_iterative_once p) w (it_init (parse_iterative_once p))) (parse_once (Collect d ext fuel q)).
  Proof.
    intros F F' (T & T'). cbn. split.
    - intros s h. pose proof (collect_tells w _ _ T ext fuel F (it_init (parse_iterative p)) d s h) as X. now rewrite <- (proj1 T).
    - intros s h. pose proof (collect_tells w _ _ T' ext fuel F' (it_init (parse_iterative_once p)) d s h) as X. now rewrite <- (proj1 T').
  Qed.
End Iterative.

(** ** How many calls *)
Section Counts.
  Context {S A : Type} {RS : RewindSequence S A} {reach : S -> S -> Prop} (law : lawful_rewind reach).

  Lemma repetition_once {N O E} `{ParseError E} (n : N) (p : pfun S O E) s cs vs r :
    repetition_calls (behaves p) (once n) s cs -> many (behaves p) s vs r -> misses (behaves p) r ->
    exists before, cs = before ++ [Called n r; Rewound r] /\ length before = length vs /\ Forall (fun c => exists s, c = Called n s) before.
  Proof.
    intros C. revert vs. induction C as [s cs NS W|s o m c0 c1 P W C IH]; intros vs M (e & SE & l & NR).
    - destruct M as [s|s v m vs r Q M]; [|exfalso; apply NS; exists v, m; exact Q].
      inversion W as [? ? NM _|? c0 _ W0]; subst; [exfalso; apply NM; exists e; split; eauto|]. unfold once in W0. subst. exists []. split; [reflexivity|]. auto.
    - unfold once in W. subst. destruct M as [s|s v m' vs r Q M]; cbn in P; [congruence|]. cbn in Q. rewrite P in Q. injection Q as <- <-.
      destruct (IH _ M) as (b & -> & LB & FB); [exists e; split; eauto|]. exists (Called n s :: b). cbn. split; [reflexivity|]. split; [now rewrite LB|eauto].
  Qed.

  (** repeat makes one attempt per value and one more, which is where it ends. *)
  Theorem C86_repeat_count {N O E} `{ParseError E} (n : N) (p : dparser S O E) fuel s h vs e r h' :
    forward reach (parse p) -> parse (Repeat fuel (noted n p)) (s, h) = Ret (Ok (vs, e) (r, h')) ->
    exists before, h' = h ++ before ++ [Called n r; Rewound r] /\ length before = length vs /\ Forall (fun c => exists s, c = Called n s) before.
  Proof.
    intros F P. pose proof (proj1 (C86_repeat law (once n) p (noted n p) fuel F (proj1 (C86_noted n p))) s h) as T.
    destruct (parse (Repeat fuel p) s) as [x| | |] eqn:Q; try congruence. destruct T as (cs & W & T). rewrite P in T.
    assert (x = Ok (vs, e) r /\ h' = h ++ cs) as (-> & ->) by (destruct x; cbn in T; [|discriminate]; now injection T as -> -> ->).
    apply (repeat_sound law p F fuel s (v := Succ (vs, e) r)) in Q; [|discriminate].
    inversion Q as [? ? ? ? M (SE & l & ME)| |]; subst.
    destruct (repetition_once n (parse p) s cs vs r W M) as (b & -> & LB & FB); [exists e; split; eauto|]. exists b. auto.
  Qed.

  (** BinExprParser makes one attempt at an operator after each term and one attempt at a term after each operator. *)
  Theorem C86_bin_count {T TE Op OE Expr} `{ParseError TE} `{ParseError OE} `{Operator Op}
    (from_term : T -> Expr) (from_bin : Expr -> Op -> Expr -> Expr) usize_max overflow_checks fuel
    (term : dparser S T TE) (op : dparser S Op OE) s h x e r h' :
    forward reach (parse term) -> forward reach (parse op) -> (forall s o r, parse op s = Ret (Ok o r) -> in_range usize_max o) ->
    parse (BinExpr from_term from_bin usize_max overflow_checks fuel (noted true term) (noted false op)) (s, h) = Ret (Ok (x, e) (r, h')) ->
    exists t m ps cs, parse term s = Ret (Ok t m) /\ many (sequence (behaves (parse op)) (behaves (parse term))) m ps r /\ h' = h ++ cs /\
      called eqb false cs = length ps + 1 /\ called eqb true cs = length ps + match e with First _ => 1 | Last _ => 2 end /\ rewinds cs = 1.
  Proof.
    intros Ft Fo B P.
    pose proof (proj1 (C86_bin_expr law from_term from_bin usize_max overflow_checks fuel (once true) (once false) term op (noted true term) (noted false op)
      Ft Fo (proj1 (C86_noted true term)) (proj1 (C86_noted false op))) s h) as X.
    destruct (parse (BinExpr from_term from_bin usize_max overflow_checks fuel term op) s) as [y| | |] eqn:Q; try congruence.
    destruct X as (cs & W & X). rewrite P in X.
    assert (y = Ok (x, e) r /\ h' = h ++ cs) as (-> & ->) by (destruct y; cbn in X; [|discriminate]; now injection X as -> -> ->).
    destruct (C10_builds_the_tree law from_term from_bin usize_max overflow_checks term op Ft Fo B fuel s x e r Q) as (t & m & ps & PT & M & ME & _).
    exists t, m, ps, cs. split; [exact PT|]. split; [exact M|]. split; [reflexivity|].
    inversion W as [? ? NS _|? o m' c0 c1 PT' W0 W1]; subst; [exfalso; apply NS; exists t, m; exact PT|].
    cbn in PT'. rewrite PT in PT'. injection PT' as <- <-. unfold once in W0. subst c0.
    enough (called eqb false c1 = length ps + 1 /\ called eqb true c1 = length ps + match e with First _ => 0 | Last _ => 1 end /\ rewinds c1 = 1) as (E1 & E2 & E3).
    { cbn in *. rewrite E1, E2, E3. destruct e; lia. }
    clear Q P X W PT. revert c1 W1. induction M as [m|m v m1 ps r V M IH]; intros c W.
    - inversion W as [? ? NS AC|? o m' c0 c1 V' W0 W1]; subst.
      + inversion AC as [? ? NM _|? c0 _ SC]; subst; [exfalso; apply NM; exists e; exact ME|].
        inversion ME as [|? e0 (SE & l & OE_)| | |? o0 m0 e0 PO (SE & l & TE_)| |]; subst.
        * inversion SC as [? ? NO WO|? o m' c1 c2 PO WO WT]; subst; [unfold once in WO; subst; cbn; auto|cbn in PO; congruence].
        * inversion SC as [? ? NO WO|? o m' c1 c2 PO' WO WT]; subst; [exfalso; apply NO; exists o0, m0; exact PO|].
          unfold once in WO, WT. subst. cbn. auto.
      + exfalso. inversion V' as [? x1 m1 y1 r1 P1 P2| | | | | |]; subst.
        inversion ME as [|? e0 (SE & l & OE_)| | |? o0 m0 e0 PO (SE & l & TE_)| |]; subst; cbn in P1, P2; [congruence|].
        cbn in PO. rewrite PO in P1. injection P1 as <- <-. congruence.
    - inversion W as [? ? NS SC|? o m' c0 c1 V' W0 W1]; subst; [exfalso; apply NS; exists v, m1; exact V|].
      inversion V as [? x1 k1 y1 r1 P1 P2| | | | | |]; subst. inversion V' as [? x2 k2 y2 r2 P3 P4| | | | | |]; subst.
      cbn in P1, P2, P3, P4. rewrite P1 in P3. injection P3 as <- <-. rewrite P2 in P4. injection P4 as <- <-.
      destruct (IH ME _ W1) as (E1 & E2 & E3).
      inversion W0 as [? ? NO WO|? o m' d0 d1 PO WO WT]; subst; [exfalso; apply NO; exists x1, k1; exact P1|].
      unfold once in WO, WT. subst. cbn in *. rewrite E1, E2, E3. lia.
  Qed.
End Counts.

(** ** Cases *)
Import P_Comb.
(** The hypotheses hold of the parsers used. *)
Example C86_forward_case : lawful_rewind (@later_slice nat) /\ forward (@later_slice nat) (parse (the 1)) /\
  forward (@later_slice nat) (parse number) /\ forward (@later_slice nat) (parse safe_operator).
Proof. split; [exact slice_lawful|]. split; [apply the_item_forward_slice|]. split; apply on_item_forward. Qed.
(** The second alternative is tried where the first was, although the first moved. *)
Example C86_or_case :
  parse (Or (Join (noted 0 (the 1)) (noted 1 (the 2))) (noted 2 anyp)) (nums [1; 3], [])
  = Ret (Ok (Last 1) (Slice 1 1 [3],
      [Called 0 (nums [1; 3]); Called 1 (Slice 1 1 [3]); Rewound (nums [1; 3]); Called 2 (nums [1; 3])])).
Proof. reflexivity. Qed.
Example C86_repeat_case :
  parse (Repeat 9 (noted tt (the 1))) (nums [1; 1; 2], [])
  = Ret (Ok ([tt; tt], MkMiss tt) (Slice 1 2 [2],
      [Called tt (nums [1; 1; 2]); Called tt (Slice 1 1 [1; 2]); Called tt (Slice 1 2 [2]); Rewound (Slice 1 2 [2])])).
Proof. reflexivity. Qed.
Example C86_bin_case :
  parse (BinExpr Leaf Node 3 true 9 (noted true number) (noted false safe_operator)) (nums [2; 1; 4; 1; 9], [])
  = Ret (Ok (Node (Leaf 2) Plus (Leaf 4) : btree, Last (MkMiss tt))
      (Slice 1 3 [1; 9],
       [Called true (nums [2; 1; 4; 1; 9]); Called false (Slice 1 1 [1; 4; 1; 9]); Called true (Slice 1 2 [4; 1; 9]);
        Called false (Slice 1 3 [1; 9]); Called true (Slice 1 4 [9]); Rewound (Slice 1 3 [1; 9])])).
Proof. reflexivity. Qed.
(** take calls nothing once it has its items. *)
Example C86_take_case :
  parse (Fold 9 (Take (RepeatIter (noted tt (the 1))) 2) 0 (fun n _ => n + 1)) (nums [1; 1; 1], [])
  = Ret (Ok 2 (Slice 1 2 [1], [Called tt (nums [1; 1; 1]); Called tt (Slice 1 1 [1; 1])])).
Proof. reflexivity. Qed.

Print Assumptions C86_or.
Print Assumptions C86_join.
Print Assumptions C86_one_call.
Print Assumptions C86_unify.
Print Assumptions C86_optional.
Print Assumptions C86_repeat.
Print Assumptions C86_bin_expr.
Print Assumptions C86_noted.
Print Assumptions C86_optional_iterative.
Print Assumptions C86_repeat_iterative.
Print Assumptions C86_sessions.
Print Assumptions C86_fold.
Print Assumptions C86_collect.
Print Assumptions C86_repeat_count.
Print Assumptions C86_bin_count.
