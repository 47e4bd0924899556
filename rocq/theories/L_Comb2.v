(** * L_Comb2: the statements of P_Comb.v derived from L_Comb.v. *)
From Verif Require Export L_Comb L_Prim.

Set Implicit Arguments.

Ltac fin :=
  repeat match goal with |- _ /\ _ => split | |- exists _, _ => eexists end;
  first [reflexivity | eassumption | congruence | exact I].
Ltac crush :=
  repeat split; intros;
  repeat match goal with
  | H : _ /\ _ |- _ => destruct H
  | H : _ \/ _ |- _ => destruct H
  | H : exists _, _ |- _ => destruct H
  | H : @Ret _ _ = @Ret _ _ |- _ => inversion H; clear H; subst
  end; try congruence; try solve [fin | left; fin | right; fin].

Section Props.
  Context {S A : Type} {RS : RewindSequence S A} {reach : S -> S -> Prop}.
  Context (LR : lawful_rewind reach).

  Lemma or_errors_exact {O0 E0 O1 E1} `{ParseError E0} `{ParseError E1}
    (a : dparser S O0 E0) (b : dparser S O1 E1) (Hf : forward reach (parse a)) s :
    (forall e, (exists l, parse (Or a b) s = Ret (Err (BFirst e) l)) <->
               (should_terminate e = true /\ exists l, parse a s = Ret (Err e l))) /\
    (forall e, (exists l, parse (Or a b) s = Ret (Err (BLast e) l)) <->
               (should_terminate e = true /\ (exists l, parse b s = Ret (Err e l)) /\
                exists e0 l, parse a s = Ret (Err e0 l) /\ should_terminate e0 = false)) /\
    (forall e0 e1, (exists l, parse (Or a b) s = Ret (Err (BBoth e0 e1) l)) <->
               (should_terminate e0 = false /\ should_terminate e1 = false /\
                (exists l, parse a s = Ret (Err e0 l)) /\ exists l, parse b s = Ret (Err e1 l))) /\
    (forall e l, parse (Or a b) s = Ret (Err e l) ->
       (should_terminate e = true <-> match e with BFirst _ | BLast _ => True | BBoth _ _ => False end)).
  Proof.
    cbn [parse Or]. unfold or_parse, done, fail. cbv zeta.
    destruct (parse a s) as [[oa ra|ea ra]| | |] eqn:Ha; cbn [bind]; try solve [crush].
    destruct (should_terminate ea) eqn:Hta; cbn [negb].
    - crush.
    - rewrite (rewind_err LR _ Hf Ha). cbn [bind].
      destruct (parse b s) as [[ob rb|eb rb]| | |] eqn:Hb; cbn [bind]; try solve [crush].
      destruct (should_terminate eb) eqn:Htb; cbn [negb]; crush.
      all: cbn in *; rewrite ?Hta, ?Htb in *; cbn in *; try discriminate; try contradiction; try tauto.
  Qed.

  Lemma join_assoc_exact {O0 E0 O1 E1 O2 E2} `{ParseError E0} `{ParseError E1} `{ParseError E2}
    (a : dparser S O0 E0) (b : dparser S O1 E1) (c : dparser S O2 E2) s w :
    behaves (parse (Join a (Join b c))) s w <->
    exists v, behaves (parse (Join (Join a b) c)) s v /\ rebracket v = w.
  Proof.
    change (parse (Join a (Join b c))) with (join_parse a (Join b c)).
    change (parse (Join (Join a b) c)) with (join_parse (Join a b) c).
    rewrite join_parse_spec.
    assert (forall v, behaves (join_parse (Join a b) c) s v <->
              sequence (sequence (behaves (parse a)) (behaves (parse b))) (behaves (parse c)) s v) as Hl.
    { intros v. rewrite join_parse_spec. apply sequence_cong; [|intros ? ?; reflexivity].
      intros ? ?. apply join_parse_spec. }
    assert (sequence (behaves (parse a)) (behaves (parse (Join b c))) s w <->
            sequence (behaves (parse a)) (sequence (behaves (parse b)) (behaves (parse c))) s w) as Hr.
    { apply sequence_cong; [intros ? ?; reflexivity|]. intros ? ?. apply join_parse_spec. }
    rewrite Hr. split.
    - intros Hs. apply sequence_assoc_back in Hs. destruct Hs as [v [Hv Hw]]. exists v.
      split; auto. now apply Hl.
    - intros [v [Hv <-]]. apply sequence_assoc. now apply Hl.
  Qed.

  Lemma map_exact {O E U} (p : dparser S O E) (f : O -> U) s :
    (forall u r, parse (Map p f) s = Ret (Ok u r) <-> exists v, parse p s = Ret (Ok v r) /\ u = f v) /\
    (forall e l, parse (Map p f) s = Ret (Err e l) <-> parse p s = Ret (Err e l)).
  Proof.
    cbn. unfold map_parse. destruct (parse p s) as [[o r|e r]| | |] eqn:Hp; cbn [bind]; crush.
  Qed.

  Lemma map_err_exact {O E U} (p : dparser S O E) (f : E -> U) s :
    (forall v r, parse (MapErr p f) s = Ret (Ok v r) <-> parse p s = Ret (Ok v r)) /\
    (forall e' l, parse (MapErr p f) s = Ret (Err e' l) <-> exists e, parse p s = Ret (Err e l) /\ e' = f e).
  Proof.
    cbn. unfold map_err_parse. destruct (parse p s) as [[o r|e r]| | |] eqn:Hp; cbn [bind]; crush.
  Qed.

  Lemma and_then_exact {O E O' E'} (from : E -> E') (p : dparser S O E) (f : O -> result O' E') s :
    (forall u r, parse (AndThen from p f) s = Ret (Ok u r) <->
            exists v, parse p s = Ret (Ok v r) /\ f v = ROk u) /\
    (forall e' l, parse (AndThen from p f) s = Ret (Err e' l) <->
            (exists v, parse p s = Ret (Ok v l) /\ f v = RErr e') \/
            (exists e, parse p s = Ret (Err e l) /\ e' = from e)).
  Proof.
    cbn. unfold and_then_parse, done, fail. destruct (parse p s) as [[o r|e r]| | |] eqn:Hp; cbn [bind].
    - destruct (f o) eqn:Hfo; crush.
    - crush.
    - crush.
    - crush.
    - crush.
  Qed.

  Lemma unify_exact {E T0 T1 T} (i0 : T0 -> T) (i1 : T1 -> T) (p : dparser S (Either T0 T1) E) s :
    (forall u r, parse (Unify i0 i1 p) s = Ret (Ok u r) <->
            (exists x, parse p s = Ret (Ok (First x) r) /\ u = i0 x) \/
            (exists x, parse p s = Ret (Ok (Last x) r) /\ u = i1 x)) /\
    (forall e l, parse (Unify i0 i1 p) s = Ret (Err e l) <-> parse p s = Ret (Err e l)).
  Proof.
    cbn. unfold unify_parse, done. destruct (parse p s) as [[[o|o] r|e r]| | |] eqn:Hp; cbn [bind either_unify]; crush.
  Qed.

  Lemma unify_err_exact {O T0 T1 T} (i0 : T0 -> T) (i1 : T1 -> T) (p : dparser S O (Either T0 T1)) s :
    (forall v r, parse (UnifyErr i0 i1 p) s = Ret (Ok v r) <-> parse p s = Ret (Ok v r)) /\
    (forall e l, parse (UnifyErr i0 i1 p) s = Ret (Err e l) <->
            (exists x, parse p s = Ret (Err (First x) l) /\ e = i0 x) \/
            (exists x, parse p s = Ret (Err (Last x) l) /\ e = i1 x)).
  Proof.
    cbn. unfold unify_err_parse. destruct (parse p s) as [[o r|[e|e] r]| | |] eqn:Hp; cbn [bind either_unify]; crush.
  Qed.

  Lemma ref_boxed_exact {O E} (p : dparser S O E) s :
    parse (Ref p) s = parse p s /\ parse (Boxed p) s = parse p s /\
    parse_once (Boxed p) s = parse_once p s.
  Proof. repeat split. Qed.

  Lemma map_compose_exact {O E U V} (p : dparser S O E) (f : O -> U) (g : U -> V) s :
    parse (Map (Map p f) g) s = parse (Map p (fun x => g (f x))) s /\
    parse (Map p (fun x => x)) s = parse p s.
  Proof.
    cbn. unfold map_parse. cbn. unfold map_parse.
    destruct (parse p s) as [[o r|e r]| | |]; cbn; auto.
  Qed.

  (** Panics and undefined behaviour of sub-parsers are passed on, nothing else
      crashes. *)
  Lemma map_family_crash {O E U} (p : dparser S O E) (f : O -> U) (g : E -> U) s :
    (forall k, behaves (H := fun _ => false) (parse p) s (Crash k) <->
               behaves (H := fun _ => false) (parse (Map p f)) s (Crash k)) /\
    (forall k, behaves (H := fun _ => false) (parse p) s (Crash k) <->
               behaves (H := fun _ => false) (parse (MapErr p g)) s (Crash k)).
  Proof.
    cbn. unfold map_parse, map_err_parse.
    split; intros []; destruct (parse p s) as [[o r|e r]| | |] eqn:Hp; cbn; rewrite ?Hp; cbn; split; congruence.
  Qed.

  Lemma repeat_exact {O E} `{ParseError E} (p : dparser S O E)
    (Hf : forward reach (parse p)) s v :
    v <> Crash CFuel ->
    (exists fuel, behaves (parse (Repeat fuel p)) s v) <-> repetition (behaves (parse p)) s v.
  Proof.
    intros Hv. split.
    - intros [fuel Hb]. exact (repeat_sound LR p Hf fuel s Hb Hv).
    - intros Hr. destruct (repeat_complete LR p Hf Hr) as [n Hn]. exists n. apply Hn. lia.
  Qed.

  Lemma repeat_terminates_exact {O E} `{ParseError E} (p : dparser S O E) (size : S -> nat) :
    forward reach (parse p) ->
    (forall s o r, parse p s = Ret (Ok o r) -> size r < size s) ->
    (forall s, parse p s <> OutOfFuel) ->
    forall s, parse (Repeat (size s + 1) p) s <> OutOfFuel.
  Proof. intros Hf Hd Hn s. apply (repeat_terminates LR p size Hf Hd Hn). lia. Qed.

  Lemma fatal_not_swallowed :
    (forall O0 E0 O1 E1 `(ParseError E0) `(ParseError E1) (a : dparser S O0 E0) (b : dparser S O1 E1),
      forward reach (parse a) -> forall s,
      (forall e, behaves (parse a) s (Cut e) -> behaves (parse (Or a b)) s (Cut (BFirst e))) /\
      (forall e0 e, behaves (parse a) s (Missed e0) -> behaves (parse b) s (Cut e) ->
               behaves (parse (Or a b)) s (Cut (BLast e))) /\
      (forall e, behaves (parse a) s (Cut e) -> behaves (parse (Join a b)) s (Cut (First e))) /\
      (forall x m e, behaves (parse a) s (Succ x m) -> behaves (parse b) m (Cut e) ->
               behaves (parse (Join a b)) s (Cut (Last e)))) /\
    (forall O E U `(ParseError E) (p : dparser S O E) (f : O -> U),
      forward reach (parse p) -> forall s e, behaves (parse p) s (Cut e) ->
      behaves (parse (Optional p)) s (Cut e) /\ behaves (parse (Map p f)) s (Cut e)) /\
    (forall O E `(ParseError E) (p : dparser S O E), forward reach (parse p) ->
      forall s vs r e, many (behaves (parse p)) s vs r -> behaves (parse p) r (Cut e) ->
      forall fuel, length vs < fuel -> behaves (parse (Repeat fuel p)) s (Cut e)).
  Proof.
    split; [|split].
    - intros O0 E0 O1 E1 H0 H1 a b Hf s. split; [|split; [|split]].
      + intros e He. apply (or_parse_complete LR a b Hf). now apply ch_cut.
      + intros e0 e H2 H3. apply (or_parse_complete LR a b Hf). eapply ch_cut2; eauto.
      + intros e He. apply join_parse_complete. now apply sq_cut1.
      + intros x m e H2 H3. apply join_parse_complete. eapply sq_cut2; eauto.
    - intros O E U H p f Hf s e He. split.
      + apply (optional_parse_complete LR p Hf). now apply op_cut.
      + apply map_parse_complete. now apply ov_cut.
    - intros O E H p Hf s vs r e Hm [He [l Hl]] fuel Hfuel. split; auto. exists l. cbn.
      unfold repeat_parse.
      replace fuel with (length vs + Datatypes.S (fuel - length vs - 1)) by lia.
      rewrite (repeat_loop_steps p Hm). cbn [repeat_loop]. rewrite Hl. cbn [bind]. now rewrite He.
  Qed.

  Lemma failure_location_unobservable :
    (forall O0 E0 O1 E1 `(ParseError E0) `(ParseError E1)
       (a a' : dparser S O0 E0) (b b' : dparser S O1 E1),
      forward reach (parse a) -> forward reach (parse a') ->
      same_behaviour (behaves (parse a)) (behaves (parse a')) ->
      same_behaviour (behaves (parse b)) (behaves (parse b')) ->
      same_behaviour (behaves (parse (Or a b))) (behaves (parse (Or a' b'))) /\
      same_behaviour (behaves (parse (Join a b))) (behaves (parse (Join a' b')))) /\
    (forall O E U `(ParseError E) (p p' : dparser S O E) (f : O -> U) fuel,
      forward reach (parse p) -> forward reach (parse p') ->
      same_behaviour (behaves (parse p)) (behaves (parse p')) ->
      same_behaviour (behaves (parse (Optional p))) (behaves (parse (Optional p'))) /\
      same_behaviour (behaves (parse (Map p f))) (behaves (parse (Map p' f))) /\
      same_behaviour (behaves (parse (Repeat fuel p))) (behaves (parse (Repeat fuel p')))).
  Proof.
    split.
    - intros O0 E0 O1 E1 H0 H1 a a' b b' Hf Hf' Ha Hb. split; intros s v; cbn [parse Or Join].
      + rewrite (or_parse_spec LR a b Hf s v), (or_parse_spec LR a' b' Hf' s v). now apply choice_cong.
      + rewrite !join_parse_spec. now apply sequence_cong.
    - intros O E U H p p' f fuel Hf Hf' Hp. split; [|split]; intros s v; cbn [parse Optional Map Repeat].
      + rewrite (optional_parse_spec LR p Hf s v), (optional_parse_spec LR p' Hf' s v). now apply option_cong.
      + rewrite !map_parse_spec. now apply on_value_cong.
      + split.
        * apply (repeat_loop_cong LR _ _ Hf Hf' Hp).
        * apply (repeat_loop_cong LR _ _ Hf' Hf (same_sym Hp)).
  Qed.

  Lemma forward_closed :
    (forall O0 E0 O1 E1 `(ParseError E0) `(ParseError E1) (a : dparser S O0 E0) (b : dparser S O1 E1),
      forward reach (parse a) -> forward reach (parse b) ->
      forward reach (parse (Or a b)) /\ forward reach (parse (Join a b))) /\
    (forall O E U (p : dparser S O E) (f : O -> U), forward reach (parse p) -> forward reach (parse (Map p f))) /\
    (forall O E U (p : dparser S O E) (f : E -> U), forward reach (parse p) -> forward reach (parse (MapErr p f))) /\
    (forall O E O' E' (from : E -> E') (p : dparser S O E) (f : O -> result O' E'),
      forward reach (parse p) -> forward reach (parse (AndThen from p f))) /\
    (forall E T0 T1 T (i0 : T0 -> T) (i1 : T1 -> T) (p : dparser S (Either T0 T1) E),
      forward reach (parse p) -> forward reach (parse (Unify i0 i1 p))) /\
    (forall O T0 T1 T (i0 : T0 -> T) (i1 : T1 -> T) (p : dparser S O (Either T0 T1)),
      forward reach (parse p) -> forward reach (parse (UnifyErr i0 i1 p))) /\
    (forall O E `(ParseError E) (p : dparser S O E) fuel, forward reach (parse p) ->
      forward reach (parse (Ref p)) /\ forward reach (parse (Boxed p)) /\
      forward reach (parse (Optional p)) /\ forward reach (parse (Repeat fuel p))).
  Proof.
    split; [|split; [|split; [|split; [|split; [|split]]]]].
    - intros. split; [now apply (or_forward LR)|now apply (join_forward LR)].
    - intros. now apply map_forward.
    - intros. now apply map_err_forward.
    - intros. now apply and_then_forward.
    - intros. now apply unify_forward.
    - intros. now apply unify_err_forward.
    - intros. repeat split; auto; [now apply (optional_forward LR)|now apply (repeat_forward LR)].
  Qed.

  Lemma coherent_closed :
    (forall O0 E0 O1 E1 `(ParseError E0) `(ParseError E1) (a : dparser S O0 E0) (b : dparser S O1 E1),
       coherent a -> coherent b -> coherent (Or a b) /\ coherent (Join a b)) /\
    (forall O E U (p : dparser S O E) (f : O -> U), coherent p -> coherent (Map p f)) /\
    (forall O E U (p : dparser S O E) (f : E -> U), coherent p -> coherent (MapErr p f)) /\
    (forall O E O' E' (from : E -> E') (p : dparser S O E) (f : O -> result O' E'),
       coherent p -> coherent (AndThen from p f)) /\
    (forall E T0 T1 T (i0 : T0 -> T) (i1 : T1 -> T) (p : dparser S (Either T0 T1) E),
       coherent p -> coherent (Unify i0 i1 p)) /\
    (forall O T0 T1 T (i0 : T0 -> T) (i1 : T1 -> T) (p : dparser S O (Either T0 T1)),
       coherent p -> coherent (UnifyErr i0 i1 p)) /\
    (forall O E `(ParseError E) (p : dparser S O E) fuel,
       coherent p -> coherent (Ref p) /\ coherent (Boxed p) /\ coherent (Optional p) /\ coherent (Repeat fuel p)).
  Proof.
    split; [|split; [|split; [|split; [|split; [|split]]]]].
    - intros. split; [now apply or_coherent|now apply join_coherent].
    - intros. now apply map_coherent.
    - intros. now apply map_err_coherent.
    - intros. now apply and_then_coherent.
    - intros. now apply unify_coherent.
    - intros. now apply unify_err_coherent.
    - intros. split; [|split; [|split]]; [apply ref_coherent|now apply boxed_coherent|now apply optional_coherent|apply repeat_coherent].
  Qed.
End Props.

Lemma error_algebra {E E'} `{ParseError E} `{ParseError E'} :
  (forall (e : E), should_terminate (MkMiss e) = false /\ should_terminate (MkFatal e) = true /\
     should_terminate (Some e) = should_terminate e /\ should_terminate (@None E) = false /\
     should_terminate (@First E E' e) = should_terminate e /\
     should_terminate (@BFirst E E' e) = should_terminate e) /\
  (forall (e : E'), should_terminate (@Last E E' e) = should_terminate e /\
     should_terminate (@BLast E E' e) = should_terminate e) /\
  (forall (e : E) (e' : E'), should_terminate (BBoth e e') = true <->
     should_terminate e = true \/ should_terminate e' = true).
Proof. repeat split; cbn; intros; try (now apply orb_true_iff). Qed.

(** Primitive parsers over slices move forward, and on success strictly. *)
Section SlicePrims.
  Context {T : Type}.
  Lemma any_item_forward_slice : forward (@later_slice T) (parse any_item).
  Proof.
    intros s r. cbn. unfold any_item_parse. cbn [segments slice_sequence slice_segments any_item_loop].
    destruct (sl_data s) as [|x xs] eqn:E.
    - injection 1 as <-. apply later_slice_refl.
    - cbn. destruct (slice_advance s 1) as [s'| | |] eqn:Ha; cbn; try discriminate.
      injection 1 as <-. eapply slice_advance_later; eauto.
  Qed.
  Lemma the_item_forward_slice (eqb : T -> T -> bool) x : forward (@later_slice T) (parse (the_item eqb x)).
  Proof.
    intros s r. cbn. unfold the_item_parse. cbn [segments slice_sequence slice_segments the_item_loop].
    destruct (sl_data s) as [|y ys] eqn:E.
    - injection 1 as <-. apply later_slice_refl.
    - destruct (eqb y x).
      + cbn. destruct (slice_advance s 1) as [s'| | |] eqn:Ha; cbn; try discriminate.
        injection 1 as <-. eapply slice_advance_later; eauto.
      + injection 1 as <-. apply later_slice_refl.
  Qed.
  Lemma the_item_progress_slice (eqb : T -> T -> bool) x (s : slice T) o r :
    parse (the_item eqb x) s = Ret (Ok o r) -> length (sl_data r) < length (sl_data s).
  Proof.
    cbn. unfold the_item_parse. cbn [segments slice_sequence slice_segments the_item_loop].
    destruct (sl_data s) as [|y ys] eqn:E; [discriminate|].
    destruct (eqb y x); [|discriminate].
    cbn. destruct (slice_advance s 1) as [s'| | |] eqn:Ha; cbn; try discriminate.
    injection 1 as _ <-. apply slice_advance_iff in Ha. destruct Ha as [d [Hd [He _]]].
    rewrite E in He. apply (f_equal (@length T)) in He. rewrite app_length in He. cbn in He. lia.
  Qed.
End SlicePrims.
