(** * P_Laws: property C69, grammar refactorings. *)
From Verif Require Import S_Laws L_Comb2 L_Laws.
From Verif Require Import P_Comb.

Section Laws.
  Context {S A : Type} {RS : RewindSequence S A} {reach : S -> S -> Prop} (LR : lawful_rewind reach).

  Section Three.
    Context {O0 E0 O1 E1 O2 E2 : Type} `{ParseError E0} `{ParseError E1} `{ParseError E2}.
    Context (a : dparser S O0 E0) (b : dparser S O1 E1) (c : dparser S O2 E2).
    Context (Fa : forward reach (parse a)) (Fb : forward reach (parse b)).

    (** [a / (b / c)] and [(a / b) / c]. *)
    Theorem C69_or_associative s :
      outcome (parse (Or a (Or b c)) s) = seen rebracket_value (outcome (parse (Or (Or a b) c) s)).
    Proof.
      rewrite (out_or LR a (Or b c)), (out_or LR b c), (out_or LR (Or a b) c), (out_or LR a b); auto.
      2: exact (or_forward LR a b Fa Fb).
      destruct (outcome (parse a s)); cbn; auto. destruct (outcome (parse b s)); cbn; auto.
      now destruct (outcome (parse c s)).
    Qed.

    (** [a (b / c)] and [a b / a c]. *)
    Theorem C69_left_factor s :
      outcome (parse (Join a (Or b c)) s) = seen factor (outcome (parse (Or (Join a b) (Join a c)) s)).
    Proof.
      rewrite (out_or LR (Join a b) (Join a c)) by exact (join_forward LR a b Fa Fb).
      rewrite !out_join. destruct (outcome (parse a s)) as [x m| | |]; cbn [then_ seen otherwise]; auto.
      rewrite (out_or LR b c) by auto.
      destruct (outcome (parse b m)); cbn; auto. now destruct (outcome (parse c m)).
    Qed.

    (** What [(a / b) c] accepts, [a c / b c] accepts too, with the same value
        and rest; and if [a c / b c] does not commit to the second branch after
        a success of [a], they are the same. *)
    Theorem C69_right_factor (Fc : forward reach (parse c)) s :
      (forall v r, outcome (parse (Join (Or a b) c) s) = Succ v r ->
         exists w, outcome (parse (Or (Join a c) (Join b c)) s) = Succ w r /\ factor_right w = v) /\
      ((forall x m, outcome (parse a s) = Succ x m -> outcome (parse c m) <> Missed tt) ->
       outcome (parse (Join (Or a b) c) s) = seen factor_right (outcome (parse (Or (Join a c) (Join b c)) s))).
    Proof.
      rewrite (out_or LR (Join a c) (Join b c)) by exact (join_forward LR a c Fa Fc).
      rewrite !out_join, (out_or LR a b) by auto. split.
      - intros v r. destruct (outcome (parse a s)) as [x m| | |]; cbn; try discriminate.
        + destruct (outcome (parse c m)); cbn; try discriminate. injection 1 as <- <-. eauto.
        + destruct (outcome (parse b s)) as [y m| | |]; cbn; try discriminate.
          destruct (outcome (parse c m)); cbn; try discriminate. injection 1 as <- <-. eauto.
      - intros N. destruct (outcome (parse a s)) as [x m|[]|[]|k]; cbn; auto.
        + specialize (N x m eq_refl). destruct (outcome (parse c m)) as [| [] | | ]; cbn; auto. contradiction.
        + destruct (outcome (parse b s)) as [y m| | |]; cbn; auto. now destruct (outcome (parse c m)).
    Qed.
  End Three.

  Section One.
    Context {O E : Type} `{ParseError E} (p : dparser S O E) (F : forward reach (parse p)).

    (** [p / p] and [p]. *)
    Theorem C69_or_idempotent s : seen either_same (outcome (parse (Or p p) s)) = outcome (parse p s).
    Proof. rewrite (out_or LR p p) by auto. now destruct (outcome (parse p s)) as [ | [] | [] | ]. Qed.

    (** [p?] and [p / nothing]. *)
    Theorem C69_optional_is_or s :
      seen result_option (outcome (parse (Optional p) s)) = seen as_option (outcome (parse (Or p nothing) s)).
    Proof.
      rewrite (out_optional LR p), (out_or LR p nothing), out_nothing by auto.
      now destruct (outcome (parse p s)).
    Qed.

    (** [p*] and [p p* / nothing]. *)
    Theorem C69_repeat_unrolls fuel s :
      seen fst (outcome (parse (Repeat (Datatypes.S fuel) p) s))
      = seen unrolled (outcome (parse (Or (Join p (Repeat fuel p)) nothing) s)).
    Proof.
      rewrite (out_repeat LR p), (out_or LR (Join p (Repeat fuel p)) nothing), out_join, out_nothing; auto.
      2: exact (join_forward LR p (Repeat fuel p) F (repeat_forward LR p fuel F)).
      destruct (outcome (parse p s)) as [v m| | |]; cbn [then_ otherwise seen]; auto.
      now destruct (outcome (parse (Repeat fuel p) m)) as [[vs e] r| | |].
    Qed.

    Lemma out_repeat_end fuel : forall s vs r,
      outcome (parse (Repeat fuel p) s) = Succ vs r -> outcome (parse p r) = Missed tt.
    Proof.
      induction fuel as [|fuel IH]; intros s vs r R; [discriminate|].
      pose proof (out_repeat LR p fuel s F) as U. rewrite R in U. cbn [seen] in U.
      destruct (outcome (parse p s)) as [v m|[]|[]|k] eqn:P; cbn [then_ otherwise] in U; try discriminate.
      - destruct (outcome (parse (Repeat fuel p) m)) as [ws m'|[]|[]|k] eqn:R2; cbn in U; try discriminate.
        + injection U as _ <-. eapply IH, R2.
        + (* a repetition does not miss *)
          injection U as _ <-. exfalso. clear -R2. revert R2. cbn [parse Repeat]. unfold repeat_parse.
          generalize (@nil O). revert m.
          induction fuel as [|fuel IH]; intros m buf R; cbn in R; [discriminate|].
          destruct (parse p m) as [[o1 r1|e1 r1]| | |]; cbn in R; try discriminate; eauto.
          destruct (should_terminate e1) eqn:T1; cbn in R; [rewrite T1 in R; discriminate|].
          destruct (rewind r1 (anchor m)); discriminate.
      - injection U as _ <-. exact P.
    Qed.

    (** [p* p] accepts nothing: a repetition leaves no [p] behind. *)
    Theorem C69_repeat_is_greedy fuel s v r : outcome (parse (Join (Repeat fuel p) p) s) <> Succ v r.
    Proof.
      rewrite out_join. destruct (outcome (parse (Repeat fuel p) s)) as [vs m| | |] eqn:R; cbn; try discriminate.
      rewrite (out_repeat_end _ _ _ _ R). discriminate.
    Qed.

    (** [p* p*]: the second finds nothing. *)
    Theorem C69_repeat_again fuel fuel' s vs e ws e' r :
      outcome (parse (Join (Repeat fuel p) (Repeat fuel' p)) s) = Succ ((vs, e), (ws, e')) r ->
      ws = [] /\ outcome (parse (Repeat fuel p) s) = Succ (vs, e) r.
    Proof.
      rewrite out_join. destruct (outcome (parse (Repeat fuel p) s)) as [[vs1 e1] m| | |] eqn:R; cbn; try discriminate.
      pose proof (out_repeat_end _ _ _ _ R) as M. destruct fuel' as [|fuel']; [discriminate|].
      pose proof (out_repeat LR p fuel' m F) as U. rewrite M in U. cbn [then_ otherwise] in U.
      change (repeat_parse (Datatypes.S fuel') p m) with (parse (Repeat (Datatypes.S fuel') p) m).
      destruct (outcome (parse (Repeat (Datatypes.S fuel') p) m)) as [[ws1 e2] m2| | |]; cbn in *; try discriminate.
      injection U as -> ->. injection 1 as <- <- <- _ <-. auto.
    Qed.
  End One.
End Laws.

(** The converse of right factoring fails: [(1 / 1 2) 3] does not accept
    [1 2 3], [1 3 / 1 2 3] does. *)
Theorem C69_right_factor_only_one_way :
  exists (s : slice nat) w r,
    outcome (parse (Join (Or (the 1) (Join (the 1) (the 2))) (the 3)) s) = Missed tt /\
    outcome (parse (Or (Join (the 1) (the 3)) (Join (Join (the 1) (the 2)) (the 3))) s) = Succ w r.
Proof. exists (nums [1; 2; 3]). eexists _, _. split; reflexivity. Qed.

(** The hypotheses hold for slices. *)
Example C69_case :
  lawful_rewind (@later_slice nat) /\ forward (@later_slice nat) (parse (the 1)) /\
  outcome (parse (Or (Join (the 1) (the 2)) (Join (the 1) (the 3))) (nums [1; 3; 9])) = Succ (Last (tt, tt)) (Slice 1 2 [9]) /\
  outcome (parse (Join (the 1) (Or (the 2) (the 3))) (nums [1; 3; 9])) = Succ (tt, Last tt) (Slice 1 2 [9]) /\
  outcome (parse (Repeat 5 (the 1)) (nums [1; 1; 3])) = Succ ([tt; tt], MkMiss tt) (Slice 1 2 [3]).
Proof. split; [exact slices_are_lawful|]. split; [exact (the_is_forward 1)|]. repeat split. Qed.

Print Assumptions C69_or_associative.
Print Assumptions C69_left_factor.
Print Assumptions C69_right_factor.
Print Assumptions C69_or_idempotent.
Print Assumptions C69_optional_is_or.
Print Assumptions C69_repeat_unrolls.
Print Assumptions C69_repeat_is_greedy.
Print Assumptions C69_repeat_again.
Print Assumptions C69_right_factor_only_one_way.
