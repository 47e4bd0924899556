(** * L_Laws: the outcomes of the combinators, from those of their parts. *)
From Verif Require Import S_Laws L_Comb2.

Definition then_ {S O U} (v : verdict S O unit) (k : O -> S -> verdict S U unit) : verdict S U unit :=
  match v with
  | Succ o r => k o r
  | Missed e => Missed e
  | Cut e => Cut e
  | Crash c => Crash c
  end.
Definition otherwise {S O} (v w : verdict S O unit) : verdict S O unit :=
  match v with Missed _ => w | _ => v end.

Section Outcomes.
  Context {S A : Type} {RS : RewindSequence S A} {reach : S -> S -> Prop} (LR : lawful_rewind reach).

  Lemma out_or {O0 E0 O1 E1} `{ParseError E0} `{ParseError E1} (a : dparser S O0 E0) (b : dparser S O1 E1) s :
    forward reach (parse a) ->
    outcome (parse (Or a b) s) = otherwise (seen First (outcome (parse a s))) (seen Last (outcome (parse b s))).
  Proof.
    intros F. cbn [parse Or]. unfold or_parse. cbv zeta.
    destruct (parse a s) as [[o r|e r]| | |] eqn:P; auto.
    cbn [bind]. destruct (should_terminate e) eqn:T; cbn.
    - cbn. rewrite T. reflexivity.
    - rewrite T. rewrite (rewind_err LR s F P). cbn.
      destruct (parse b s) as [[o1 r1|e1 r1]| | |]; cbn; auto.
      destruct (should_terminate e1) eqn:T1; cbn.
      + now rewrite T1.
      + now rewrite T, T1.
  Qed.

  Lemma out_join {O0 E0 O1 E1} `{ParseError E0} `{ParseError E1} (a : dparser S O0 E0) (b : dparser S O1 E1) s :
    outcome (parse (Join a b) s) =
    then_ (outcome (parse a s)) (fun x m => seen (pair x) (outcome (parse b m))).
  Proof.
    cbn [parse Join]. unfold join_parse.
    destruct (parse a s) as [[o r|e r]| | |]; auto; cbn [bind].
    - cbn. destruct (parse b r) as [[o1 r1|e1 r1]| | |]; cbn; auto.
      now destruct (should_terminate e1).
    - cbn. now destruct (should_terminate e).
  Qed.

  Lemma out_optional {O E} `{ParseError E} (p : dparser S O E) s : forward reach (parse p) ->
    seen result_option (outcome (parse (Optional p) s)) = otherwise (seen Some (outcome (parse p s))) (Succ None s).
  Proof.
    intros F. cbn [parse Optional]. unfold optional_parse. cbv zeta.
    destruct (parse p s) as [[o r|e r]| | |] eqn:P; auto. cbn [bind].
    destruct (should_terminate e) eqn:T; cbn.
    - cbn. now rewrite T.
    - rewrite T. rewrite (rewind_err LR s F P). reflexivity.
  Qed.

  Lemma out_nothing s : outcome (parse (@nothing S) s) = Succ tt s.
  Proof. reflexivity. Qed.

  (** The items of a repetition. *)
  Lemma out_repeat_loop {O E} `{ParseError E} (p : dparser S O E) fuel : forall buf s,
    seen fst (outcome (repeat_loop fuel p buf s)) = seen (fun vs => buf ++ fst vs) (outcome (repeat_loop fuel p [] s)).
  Proof.
    induction fuel as [|fuel IH]; intros buf s; cbn [repeat_loop]; [reflexivity|]. cbv zeta.
    destruct (parse p s) as [[o r|e r]| | |]; auto; cbn [bind].
    - rewrite IH. cbn [app].
      assert (X : seen (fun vs : list O * E => buf ++ fst vs) (outcome (repeat_loop fuel p [o] r))
                  = seen (app buf) (seen fst (outcome (repeat_loop fuel p [o] r)))).
      { now destruct (outcome (repeat_loop fuel p [o] r)). }
      rewrite X, IH. destruct (outcome (repeat_loop fuel p [] r)); cbn; auto.
      now rewrite <- app_assoc.
    - destruct (should_terminate e) eqn:T; cbn.
      + now rewrite T.
      + destruct (rewind r (anchor s)); cbn; auto. now rewrite app_nil_r.
  Qed.

  Lemma out_repeat {O E} `{ParseError E} (p : dparser S O E) fuel s : forward reach (parse p) ->
    seen fst (outcome (parse (Repeat (Datatypes.S fuel) p) s)) =
    otherwise (then_ (outcome (parse p s)) (fun v m => 
                 match seen fst (outcome (parse (Repeat fuel p) m)) with
                 | Succ vs r => Succ (v :: vs) r
                 | w => w
                 end)) (Succ [] s).
  Proof.
    intros F. cbn [parse Repeat]. unfold repeat_parse. cbn [repeat_loop]. cbv zeta.
    destruct (parse p s) as [[o r|e r]| | |] eqn:P; auto; cbn [bind].
    - rewrite out_repeat_loop. cbn [outcome then_]. cbn [app].
      destruct (repeat_loop fuel p [] r) as [[[vs e'] r'|e r']| | |] eqn:R; cbn; auto.
      destruct (should_terminate e) eqn:T; cbn; auto.
      (* a repetition does not miss *)
      exfalso. clear -R T. revert r R. generalize (@nil O). induction fuel as [|fuel IH]; intros buf r R; cbn in R; [discriminate|].
      destruct (parse p r) as [[o1 r1|e1 r1]| | |]; cbn in R; try discriminate.
      + eauto.
      + destruct (should_terminate e1) eqn:T1; [injection R as <- <-; congruence|].
        destruct (rewind r1 (anchor r)); discriminate.
    - destruct (should_terminate e) eqn:T; cbn.
      + now rewrite T.
      + rewrite T, (rewind_err LR s F P). reflexivity.
  Qed.
End Outcomes.
