(** * L_Comb: proofs about the combinators. *)
From Verif Require Export M_Comb S_Comb.

Set Implicit Arguments.

Section Behaves.
  Context {S O E : Type} `{ParseError E}.

  (** Every run has exactly one verdict. *)
  Lemma behaves_total (p : pfun S O E) s : exists v, behaves p s v.
  Proof.
    destruct (p s) as [[o r|e r]| | |] eqn:Hp.
    - exists (Succ o r). exact Hp.
    - destruct (should_terminate e) eqn:He.
      + exists (Cut e). split; eauto.
      + exists (Missed e). split; eauto.
    - exists (Crash CPanic). exact Hp.
    - exists (Crash CUB). exact Hp.
    - exists (Crash CFuel). exact Hp.
  Qed.

  Lemma behaves_functional (p : pfun S O E) s v1 v2 :
    behaves p s v1 -> behaves p s v2 -> v1 = v2.
  Proof.
    intros H1 H2.
    destruct v1 as [? ?|?|?|[]], v2 as [? ?|?|?|[]]; cbn in H1, H2;
      repeat match goal with
             | H : _ /\ _ |- _ => destruct H
             | H : exists _, _ |- _ => destruct H
             end; congruence.
  Qed.

  Lemma behaves_ext (p q : pfun S O E) s v : p s = q s -> behaves p s v -> behaves q s v.
  Proof. intros Heq Hb. destruct v as [? ?|?|?|[]]; cbn in *; rewrite <- Heq; exact Hb. Qed.
End Behaves.
Arguments behaves_functional {S O E H p s v1 v2} _ _.
Arguments behaves_ext {S O E H} p q s v _ _.

(** Evaluate a model term along known facts. *)
Ltac run_step :=
  cbn [bind done fail parse parse_once negb];
  repeat match goal with
  | H : ?x = Ret _ |- context [bind ?x _] => rewrite H; cbn [bind]
  | H : ?x = Panic |- context [bind ?x _] => rewrite H; cbn [bind]
  | H : ?x = UB |- context [bind ?x _] => rewrite H; cbn [bind]
  | H : ?x = OutOfFuel |- context [bind ?x _] => rewrite H; cbn [bind]
  | H : should_terminate ?e = _ |- context [should_terminate ?e] => rewrite H; cbn [negb orb andb]
  end.

Ltac open_behaves :=
  repeat match goal with
  | H : behaves _ _ (Succ _ _) |- _ => cbn in H
  | H : behaves _ _ (Missed _) |- _ => cbn in H; destruct H as [? [? ?]]
  | H : behaves _ _ (Cut _) |- _ => cbn in H; destruct H as [? [? ?]]
  | H : behaves _ _ (Crash ?k) |- _ => destruct k; cbn in H
  end.

Ltac close_behaves :=
  match goal with
  | |- behaves _ _ (Succ _ _) => cbn
  | |- behaves _ _ (Missed _) => split; [cbn; auto|eexists]
  | |- behaves _ _ (Cut _) => split; [cbn; auto|eexists]
  | |- behaves _ _ (Crash _) => cbn
  end.

Section Comb.
  Context {S A : Type} {RS : RewindSequence S A} {reach : S -> S -> Prop}.
  Context (LR : lawful_rewind reach).

  Lemma rewind_after (p : S) (s : S) : reach s p -> rewind p (anchor s) = Ret s.
  Proof. apply (rewind_anchor LR). Qed.

  (** Rewinding after a failed forward parser. *)
  Lemma rewind_err {O E} (p : pfun S O E) s e l :
    forward reach p -> p s = Ret (Err e l) -> rewind l (anchor s) = Ret s.
  Proof. intros Hf Hp. apply (rewind_anchor LR). apply (Hf s (Err e l) Hp). Qed.

  (** ** or *)
  Section Or.
    Context {O0 E0 O1 E1 : Type} `{ParseError E0} `{ParseError E1}.
    Variables (p0 : dparser S O0 E0) (p1 : dparser S O1 E1).

    Lemma or_parse_complete :
      forward reach (parse p0) ->
      forall s v, choice (behaves (parse p0)) (behaves (parse p1)) s v ->
             behaves (or_parse p0 p1) s v.
    Proof.
      intros Hf s v Hc. destruct Hc; open_behaves;
        try match goal with Hm : parse p0 _ = Ret (Err _ _) |- _ => pose proof (rewind_err _ Hf Hm) as Hrw end;
        close_behaves; unfold or_parse; cbv zeta; run_step; reflexivity || eauto using orb_true_r.
    Qed.

    Lemma or_parse_spec :
      forward reach (parse p0) ->
      forall s v, behaves (or_parse p0 p1) s v <->
             choice (behaves (parse p0)) (behaves (parse p1)) s v.
    Proof.
      intros Hf s v. split; [|now apply or_parse_complete].
      intros Hb.
      assert (exists v', choice (behaves (parse p0)) (behaves (parse p1)) s v') as [v' Hv'].
      { destruct (behaves_total (parse p0) s) as [[o r|e|e|k] H1].
        - eexists; eapply ch_first; eassumption.
        - destruct (behaves_total (parse p1) s) as [[o r|e'|e'|k] H2];
            eexists; [eapply ch_second|eapply ch_miss|eapply ch_cut2|eapply ch_crash2]; eauto.
        - eexists; eapply ch_cut; eassumption.
        - eexists; eapply ch_crash; eassumption. }
      rewrite (behaves_functional Hb (or_parse_complete Hf Hv')). exact Hv'.
    Qed.

    Lemma or_parse_once_is :
      forall s, or_parse_once p0 p1 s = or_parse (DP (parse_once p0) (parse_once p0)) (DP (parse_once p1) (parse_once p1)) s.
    Proof. reflexivity. Qed.
  End Or.

  (** ** join *)
  Section Join.
    Context {O0 E0 O1 E1 : Type} `{ParseError E0} `{ParseError E1}.
    Variables (p0 : dparser S O0 E0) (p1 : dparser S O1 E1).

    Lemma join_parse_complete :
      forall s v, sequence (behaves (parse p0)) (behaves (parse p1)) s v ->
             behaves (join_parse p0 p1) s v.
    Proof.
      intros s v Hc. destruct Hc; open_behaves;
        close_behaves; unfold join_parse; run_step; reflexivity || eauto.
    Qed.

    Lemma join_parse_spec :
      forall s v, behaves (join_parse p0 p1) s v <->
             sequence (behaves (parse p0)) (behaves (parse p1)) s v.
    Proof.
      intros s v. split; [|now apply join_parse_complete].
      intros Hb.
      assert (exists v', sequence (behaves (parse p0)) (behaves (parse p1)) s v') as [v' Hv'].
      { destruct (behaves_total (parse p0) s) as [[o r|e|e|k] H1].
        - destruct (behaves_total (parse p1) r) as [[o' r'|e'|e'|k] H2];
            eexists; [eapply sq_ok|eapply sq_miss2|eapply sq_cut2|eapply sq_crash2]; eauto.
        - eexists; eapply sq_miss1; eassumption.
        - eexists; eapply sq_cut1; eassumption.
        - eexists; eapply sq_crash1; eassumption. }
      rewrite (behaves_functional Hb (join_parse_complete Hv')). exact Hv'.
    Qed.

    Lemma join_parse_once_is :
      forall s, join_parse_once p0 p1 s = join_parse (DP (parse_once p0) (parse_once p0)) (DP (parse_once p1) (parse_once p1)) s.
    Proof. reflexivity. Qed.
  End Join.

  (** ** optional *)
  Section Optional.
    Context {O E : Type} `{ParseError E}.
    Variable p : dparser S O E.

    Lemma optional_parse_complete :
      forward reach (parse p) ->
      forall s v, option_spec (behaves (parse p)) s v -> behaves (optional_parse p) s v.
    Proof.
      intros Hf s v Hc. destruct Hc; open_behaves;
        try match goal with Hm : parse p _ = Ret (Err _ _) |- _ => pose proof (rewind_err _ Hf Hm) as Hrw end;
        close_behaves; unfold optional_parse; cbv zeta; run_step; reflexivity || eauto.
    Qed.

    Lemma optional_parse_spec :
      forward reach (parse p) ->
      forall s v, behaves (optional_parse p) s v <-> option_spec (behaves (parse p)) s v.
    Proof.
      intros Hf s v. split; [|now apply optional_parse_complete].
      intros Hb.
      assert (exists v', option_spec (behaves (parse p)) s v') as [v' Hv'].
      { destruct (behaves_total (parse p) s) as [[o r|e|e|k] H1]; eexists.
        - eapply op_some; eassumption.
        - eapply op_none; eauto.
        - eapply op_cut; eassumption.
        - eapply op_crash; eassumption. }
      rewrite (behaves_functional Hb (optional_parse_complete Hf Hv')). exact Hv'.
    Qed.

    Lemma optional_parse_once_is :
      forall s, optional_parse_once p s = optional_parse (DP (parse_once p) (parse_once p)) s.
    Proof. reflexivity. Qed.
  End Optional.

  (** ** repeat *)
  Section Repeat.
    Context {O E : Type} `{ParseError E}.
    Variable p : dparser S O E.

    Definition push_front (buf : list O) (v : verdict S (list O * E) E) :=
      match v with
      | Succ (vs, e) r => Succ (buf ++ vs, e) r
      | other => other
      end.

    Lemma many_snoc (a : behaviour S O E) s vs m v r :
      many a s vs m -> a m (Succ v r) -> many a s (vs ++ [v]) r.
    Proof.
      induction 1 as [|s' v' m' vs' r' Ha Hm IH]; intros Hr; cbn.
      - econstructor; [eassumption|constructor].
      - econstructor; eauto.
    Qed.

    Lemma many_app (a : behaviour S O E) s vs m ws r :
      many a s vs m -> many a m ws r -> many a s (vs ++ ws) r.
    Proof.
      induction 1 as [|s' v' m' vs' r' Ha Hm IH]; intros Hr; cbn; auto.
      econstructor; eauto.
    Qed.

    (** [fuel > length vs] attempts are enough for a run with items [vs]. *)
    Lemma repeat_loop_steps s vs r :
      many (behaves (parse p)) s vs r ->
      forall fuel buf,
      repeat_loop (length vs + fuel) p buf s = repeat_loop fuel p (buf ++ vs) r.
    Proof.
      induction 1 as [|s' v m vs' r' Ha Hm IH]; intros fuel buf; cbn [length plus].
      - now rewrite app_nil_r.
      - cbn [repeat_loop]. cbn in Ha. rewrite Ha. cbn [bind].
        rewrite IH. now rewrite <- app_assoc.
    Qed.

    Lemma repeat_complete :
      forward reach (parse p) ->
      forall s v, repetition (behaves (parse p)) s v ->
      exists n, forall fuel, n <= fuel -> behaves (repeat_parse fuel p) s v.
    Proof.
      intros Hf s v Hr. destruct Hr as [s vs r e Hm Ha|s vs r e Hm Ha|s vs r k Hm Ha];
        exists (length vs + 1); intros fuel Hfuel;
        replace fuel with (length vs + Datatypes.S (fuel - length vs - 1)) by lia;
        generalize (fuel - length vs - 1) as n; intros n;
        unfold repeat_parse;
        eapply behaves_ext with (p := fun _ => repeat_loop (Datatypes.S n) p vs r);
        try (cbv beta; rewrite (repeat_loop_steps Hm); reflexivity);
        cbn [repeat_loop]; cbv zeta; open_behaves.
      - pose proof (rewind_err _ Hf H1) as Hrw. close_behaves. now run_step.
      - close_behaves. now run_step.
      - close_behaves; now run_step.
      - close_behaves; now run_step.
      - close_behaves; now run_step.
    Qed.

    Lemma repeat_loop_sound :
      forward reach (parse p) ->
      forall fuel s0 buf s v,
      many (behaves (parse p)) s0 buf s ->
      behaves (fun _ => repeat_loop fuel p buf s) s v -> v <> Crash CFuel ->
      repetition (behaves (parse p)) s0 v.
    Proof.
      intros Hf fuel. induction fuel as [|fuel IH]; intros s0 buf s v Hm Hb Hv.
      - cbn in Hb. destruct v as [? ?|?|?|[]]; cbn in Hb;
          repeat match goal with
             | H : _ /\ _ |- _ => destruct H
             | H : exists _, _ |- _ => destruct H
             end; congruence.
      - cbn [repeat_loop] in Hb. cbv zeta in Hb.
        destruct (behaves_total (parse p) s) as [[o r|e|e|k] H1].
        + assert (Hb' := H1). cbn in H1.
          apply IH with (buf := buf ++ [o]) (s := r); auto.
          * eapply many_snoc; eauto.
          * eapply behaves_ext; [|exact Hb]. cbv beta. now rewrite H1.
        + assert (H1' := H1). destruct H1 as [He [l Hl]].
          assert (v = Succ (buf, e) s) as ->.
          { apply (behaves_functional Hb). cbn.
            rewrite Hl; cbn [bind]; rewrite He. rewrite (rewind_err _ Hf Hl). reflexivity. }
          econstructor; eauto.
        + assert (H1' := H1). destruct H1 as [He [l Hl]].
          assert (v = Cut e) as ->.
          { apply (behaves_functional Hb). cbn. split; auto. exists l.
            rewrite Hl; cbn [bind]; rewrite He. reflexivity. }
          eapply rp_cut; eauto.
        + assert (H1' := H1).
          assert (v = Crash k) as ->.
          { apply (behaves_functional Hb). destruct k; cbn in H1 |- *; now rewrite H1. }
          eapply rp_crash; eauto.
    Qed.

    Lemma repeat_sound :
      forward reach (parse p) ->
      forall fuel s v, behaves (repeat_parse fuel p) s v -> v <> Crash CFuel ->
      repetition (behaves (parse p)) s v.
    Proof.
      intros Hf fuel s v Hb Hv. apply (repeat_loop_sound Hf fuel (buf := []) (s := s)); auto.
      constructor.
    Qed.

    (** Termination: a measure that every success decreases. *)
    Lemma repeat_terminates (size : S -> nat) :
      forward reach (parse p) ->
      (forall s o r, parse p s = Ret (Ok o r) -> size r < size s) ->
      (forall s, parse p s <> OutOfFuel) ->
      forall s fuel, size s < fuel -> repeat_parse fuel p s <> OutOfFuel.
    Proof.
      intros Hf Hdec Hnf s fuel. unfold repeat_parse. generalize (@nil O) as buf.
      revert s. induction fuel as [|fuel IH]; intros s buf Hs; [lia|].
      cbn [repeat_loop]. cbv zeta.
      specialize (Hnf s). destruct (parse p s) as [[o r|e r]| | |] eqn:Hp; cbn [bind]; try congruence.
      - apply IH. apply Hdec in Hp. lia.
      - destruct (should_terminate e) eqn:He; [discriminate|].
        rewrite (rewind_err _ Hf Hp). discriminate.
    Qed.

    (** Divergence: a success that does not move, at a reached position. *)
    Lemma repeat_diverges s vs r o :
      many (behaves (parse p)) s vs r -> parse p r = Ret (Ok o r) ->
      forall fuel, repeat_parse fuel p s = OutOfFuel.
    Proof.
      intros Hm Hr fuel. unfold repeat_parse. generalize (@nil O) as buf.
      revert fuel. induction Hm as [s|s v m vs r Ha Hm IH]; intros fuel buf.
      - revert buf. induction fuel as [|fuel IH]; intros buf; cbn [repeat_loop]; auto.
        rewrite Hr. cbn [bind]. apply IH.
      - destruct fuel as [|fuel]; cbn [repeat_loop]; auto.
        cbn in Ha. rewrite Ha. cbn [bind]. now apply IH.
    Qed.

    Lemma repeat_loop_mono fuel s buf x fuel' :
      repeat_loop fuel p buf s = x -> x <> OutOfFuel -> fuel <= fuel' ->
      repeat_loop fuel' p buf s = x.
    Proof.
      revert s buf fuel'. induction fuel as [|fuel IH]; intros s buf fuel' Hx Hne Hle.
      - cbn in Hx. congruence.
      - destruct fuel' as [|fuel']; [lia|]. cbn [repeat_loop] in Hx |- *. cbv zeta in *.
        destruct (parse p s) as [[o r|e r]| | |]; cbn [bind] in *; auto.
        apply IH; auto. lia.
    Qed.
  End Repeat.

  (** ** map family *)
  Section Maps.
    Context {O E U : Type} `{ParseError E}.
    Lemma map_parse_complete (p : dparser S O E) (f : O -> U) :
      forall s v, on_value f (behaves (parse p)) s v -> behaves (map_parse p f) s v.
    Proof.
      intros s v Hc. destruct Hc; open_behaves;
        close_behaves; unfold map_parse; run_step; reflexivity || eauto.
    Qed.

    Lemma map_parse_spec (p : dparser S O E) (f : O -> U) :
      forall s v, behaves (map_parse p f) s v <-> on_value f (behaves (parse p)) s v.
    Proof.
      intros s v. split; [|now apply map_parse_complete].
      intros Hb.
      assert (exists v', on_value f (behaves (parse p)) s v') as [v' Hv'].
      { destruct (behaves_total (parse p) s) as [[o r|e|e|k] H1]; eexists;
          [eapply ov_ok|eapply ov_miss|eapply ov_cut|eapply ov_crash]; eauto. }
      rewrite (behaves_functional Hb (map_parse_complete _ Hv')). exact Hv'.
    Qed.
  End Maps.

  (** ** Only moving forward *)
  Section Forward.
    Let refl := reach_refl LR.
    Let trans := reach_trans LR.

    Lemma forward_step {O E} (p : pfun S O E) s r :
      forward reach p -> p s = Ret r -> reach s (location r).
    Proof. intros Hf Hp. exact (Hf s r Hp). Qed.

    Ltac fwd :=
      repeat match goal with
      | Hx : forward reach ?p, Hp : ?p _ = Ret ?r |- _ =>
          lazymatch goal with
          | _ : reach _ (location r) |- _ => fail
          | _ => pose proof (forward_step Hx Hp)
          end
      end.

    Lemma or_forward {O0 E0 O1 E1} `{ParseError E0} `{ParseError E1}
      (p0 : dparser S O0 E0) (p1 : dparser S O1 E1) :
      forward reach (parse p0) -> forward reach (parse p1) -> forward reach (or_parse p0 p1).
    Proof.
      intros Hf0 Hf1 s r Hr. unfold or_parse in Hr. cbv zeta in Hr.
      destruct (parse p0 s) as [[o0 r0|e0 r0]| | |] eqn:Hp0; cbn [bind] in Hr; try discriminate.
      - injection Hr as <-. exact (Hf0 _ _ Hp0).
      - destruct (should_terminate e0); cbn [negb] in Hr.
        + injection Hr as <-. exact (Hf0 _ _ Hp0).
        + rewrite (rewind_err _ Hf0 Hp0) in Hr. cbn [bind] in Hr.
          destruct (parse p1 s) as [[o1 r1|e1 r1]| | |] eqn:Hp1; cbn [bind] in Hr; try discriminate.
          * injection Hr as <-. exact (Hf1 _ _ Hp1).
          * destruct (should_terminate e1); injection Hr as <-; exact (Hf1 _ _ Hp1).
    Qed.

    Lemma join_forward {O0 E0 O1 E1} (p0 : dparser S O0 E0) (p1 : dparser S O1 E1) :
      forward reach (parse p0) -> forward reach (parse p1) -> forward reach (join_parse p0 p1).
    Proof.
      intros Hf0 Hf1 s r Hr. unfold join_parse in Hr.
      destruct (parse p0 s) as [[o0 r0|e0 r0]| | |] eqn:Hp0; cbn [bind] in Hr; try discriminate.
      - destruct (parse p1 r0) as [[o1 r1|e1 r1]| | |] eqn:Hp1; cbn [bind] in Hr; try discriminate;
          injection Hr as <-; exact (trans (Hf0 _ _ Hp0) (Hf1 _ _ Hp1)).
      - injection Hr as <-. exact (Hf0 _ _ Hp0).
    Qed.

    Lemma map_forward {O E U} (p : dparser S O E) (f : O -> U) :
      forward reach (parse p) -> forward reach (map_parse p f).
    Proof.
      intros Hf s r Hr. unfold map_parse in Hr.
      destruct (parse p s) as [[o0 r0|e0 r0]| | |] eqn:Hp0; cbn [bind] in Hr; try discriminate;
        injection Hr as <-; exact (Hf _ _ Hp0).
    Qed.

    Lemma map_err_forward {O E U} (p : dparser S O E) (f : E -> U) :
      forward reach (parse p) -> forward reach (map_err_parse p f).
    Proof.
      intros Hf s r Hr. unfold map_err_parse in Hr.
      destruct (parse p s) as [[o0 r0|e0 r0]| | |] eqn:Hp0; cbn [bind] in Hr; try discriminate;
        injection Hr as <-; exact (Hf _ _ Hp0).
    Qed.

    Lemma and_then_forward {O E O' E'} (from : E -> E') (p : dparser S O E) (f : O -> result O' E') :
      forward reach (parse p) -> forward reach (and_then_parse from p f).
    Proof.
      intros Hf s r Hr. unfold and_then_parse in Hr.
      destruct (parse p s) as [[o0 r0|e0 r0]| | |] eqn:Hp0; cbn [bind] in Hr; try discriminate.
      - destruct (f o0); injection Hr as <-; exact (Hf _ _ Hp0).
      - injection Hr as <-; exact (Hf _ _ Hp0).
    Qed.

    Lemma unify_forward {E T0 T1 T} (i0 : T0 -> T) (i1 : T1 -> T) (p : dparser S (Either T0 T1) E) :
      forward reach (parse p) -> forward reach (unify_parse i0 i1 p).
    Proof.
      intros Hf s r Hr. unfold unify_parse in Hr.
      destruct (parse p s) as [[o0 r0|e0 r0]| | |] eqn:Hp0; cbn [bind] in Hr; try discriminate;
        injection Hr as <-; exact (Hf _ _ Hp0).
    Qed.

    Lemma unify_err_forward {O T0 T1 T} (i0 : T0 -> T) (i1 : T1 -> T) (p : dparser S O (Either T0 T1)) :
      forward reach (parse p) -> forward reach (unify_err_parse i0 i1 p).
    Proof.
      intros Hf s r Hr. unfold unify_err_parse in Hr.
      destruct (parse p s) as [[o0 r0|e0 r0]| | |] eqn:Hp0; cbn [bind] in Hr; try discriminate;
        injection Hr as <-; exact (Hf _ _ Hp0).
    Qed.

    Lemma optional_forward {O E} `{ParseError E} (p : dparser S O E) :
      forward reach (parse p) -> forward reach (optional_parse p).
    Proof.
      intros Hf s r Hr. unfold optional_parse in Hr. cbv zeta in Hr.
      destruct (parse p s) as [[o0 r0|e0 r0]| | |] eqn:Hp0; cbn [bind] in Hr; try discriminate.
      - injection Hr as <-; exact (Hf _ _ Hp0).
      - destruct (should_terminate e0); cbn [negb] in Hr.
        + injection Hr as <-; exact (Hf _ _ Hp0).
        + rewrite (rewind_err _ Hf Hp0) in Hr. cbn [bind] in Hr.
          injection Hr as <-. apply refl.
    Qed.

    Lemma repeat_forward {O E} `{ParseError E} (p : dparser S O E) fuel :
      forward reach (parse p) -> forward reach (repeat_parse fuel p).
    Proof.
      intros Hf s r. unfold repeat_parse. generalize (@nil O) as buf.
      revert s. induction fuel as [|fuel IH]; intros s buf Hr; cbn [repeat_loop] in Hr; [discriminate|].
      cbv zeta in Hr.
      destruct (parse p s) as [[o0 r0|e0 r0]| | |] eqn:Hp0; cbn [bind] in Hr; try discriminate.
      - apply (trans (Hf _ _ Hp0)). apply (IH r0 _ Hr).
      - destruct (should_terminate e0).
        + injection Hr as <-; exact (Hf _ _ Hp0).
        + rewrite (rewind_err _ Hf Hp0) in Hr. cbn [bind] in Hr.
          injection Hr as <-. apply refl.
    Qed.
  End Forward.

  (** ** Unobservable failure locations *)
  Section Congruence.
    Ltac cong_close :=
      first [eassumption
            | match goal with Hs : same_behaviour _ _ |- _ => apply Hs; eassumption end].

    Lemma choice_cong {O0 E0 O1 E1} (a a' : behaviour S O0 E0) (b b' : behaviour S O1 E1) :
      same_behaviour a a' -> same_behaviour b b' -> same_behaviour (choice a b) (choice a' b').
    Proof.
      intros Ha Hb s v. split; destruct 1; econstructor; cong_close.
    Qed.

    Lemma sequence_cong {O0 E0 O1 E1} (a a' : behaviour S O0 E0) (b b' : behaviour S O1 E1) :
      same_behaviour a a' -> same_behaviour b b' -> same_behaviour (sequence a b) (sequence a' b').
    Proof.
      intros Ha Hb s v. split; destruct 1; econstructor; cong_close.
    Qed.

    Lemma option_cong {O E} (a a' : behaviour S O E) :
      same_behaviour a a' -> same_behaviour (option_spec a) (option_spec a').
    Proof.
      intros Ha s v. split; destruct 1; econstructor; cong_close.
    Qed.

    Lemma on_value_cong {O E U} (f : O -> U) (a a' : behaviour S O E) :
      same_behaviour a a' -> same_behaviour (on_value f a) (on_value f a').
    Proof.
      intros Ha s v. split; destruct 1; econstructor; cong_close.
    Qed.

    Lemma many_cong {O E} (a a' : behaviour S O E) s vs r :
      same_behaviour a a' -> many a s vs r -> many a' s vs r.
    Proof.
      intros Ha. induction 1 as [|s v m vs r H1 H2 IH]; [constructor|].
      econstructor; eauto. now apply Ha.
    Qed.

    Lemma repetition_cong1 {O E} (a a' : behaviour S O E) s v :
      same_behaviour a a' -> repetition a s v -> repetition a' s v.
    Proof.
      intros Ha. destruct 1 as [s vs r e Hm H1|s vs r e Hm H1|s vs r e Hm H1];
        apply (many_cong Ha) in Hm; apply Ha in H1; econstructor; eauto.
    Qed.

    Lemma same_sym {O E} (a a' : behaviour S O E) : same_behaviour a a' -> same_behaviour a' a.
    Proof. intros Ha s v. symmetry. apply Ha. Qed.

    Lemma repetition_cong {O E} (a a' : behaviour S O E) :
      same_behaviour a a' -> same_behaviour (repetition a) (repetition a').
    Proof. intros Ha s v; split; apply repetition_cong1; auto using same_sym. Qed.

    (** With one and the same number of attempts, the two loops agree. *)
    Lemma repeat_loop_cong {O E} `{ParseError E} (p p' : dparser S O E) :
      forward reach (parse p) -> forward reach (parse p') ->
      same_behaviour (behaves (parse p)) (behaves (parse p')) ->
      forall fuel buf s v, behaves (fun s => repeat_loop fuel p buf s) s v ->
                      behaves (fun s => repeat_loop fuel p' buf s) s v.
    Proof.
      intros Hf Hf' Hs fuel. induction fuel as [|fuel IH]; intros buf s v Hb; [exact Hb|].
      destruct (behaves_total (parse p) s) as [w H1]. assert (H2 := H1). apply Hs in H2.
      destruct w as [o r|e|e|k].
      - cbn in H1, H2.
        eapply behaves_ext with (p := fun _ => repeat_loop fuel p' (buf ++ [o]) r).
        + cbn [repeat_loop]. now rewrite H2.
        + apply (behaves_ext (fun s => repeat_loop (Datatypes.S fuel) p buf s)
                   (fun _ => repeat_loop fuel p (buf ++ [o]) r)) in Hb.
          2:{ cbn [repeat_loop]. now rewrite H1. }
          specialize (IH (buf ++ [o]) r v).
          destruct v as [? ?|?|?|[]]; exact (IH Hb).
      - destruct H1 as [He [l Hl]], H2 as [_ [l' Hl']].
        assert (v = Succ (buf, e) s) as ->.
        { apply (behaves_functional Hb). cbn. rewrite Hl; cbn [bind]; rewrite He.
          now rewrite (rewind_err _ Hf Hl). }
        cbn. rewrite Hl'; cbn [bind]; rewrite He. now rewrite (rewind_err _ Hf' Hl').
      - destruct H1 as [He [l Hl]], H2 as [_ [l' Hl']].
        assert (v = Cut e) as ->.
        { apply (behaves_functional Hb). cbn. split; auto. eexists. rewrite Hl; cbn [bind]; now rewrite He. }
        cbn. split; auto. eexists. rewrite Hl'; cbn [bind]; now rewrite He.
      - assert (v = Crash k) as ->.
        { apply (behaves_functional Hb). destruct k; cbn in H1 |- *; now rewrite H1. }
        destruct k; cbn in H2 |- *; now rewrite H2.
    Qed.
  End Congruence.
End Comb.

(** ** parse_once = parse *)
Section Coherence.
  Context {S A : Type} {RS : RewindSequence S A}.

  Lemma or_coherent {O0 E0 O1 E1} `{ParseError E0} `{ParseError E1}
    (p0 : dparser S O0 E0) (p1 : dparser S O1 E1) :
    coherent p0 -> coherent p1 -> coherent (Or p0 p1).
  Proof.
    intros H0' H1' s. cbn. unfold or_parse, or_parse_once. cbv zeta. rewrite H0'.
    destruct (parse_once p0 s) as [[o r|e r]| | |]; cbn [bind]; auto.
    destruct (negb (should_terminate e)); auto.
    destruct (rewind r (anchor s)) as [s'| | |]; cbn [bind]; auto. now rewrite H1'.
  Qed.

  Lemma join_coherent {O0 E0 O1 E1} (p0 : dparser S O0 E0) (p1 : dparser S O1 E1) :
    coherent p0 -> coherent p1 -> coherent (Join p0 p1).
  Proof.
    intros H0' H1' s. cbn. unfold join_parse, join_parse_once. rewrite H0'.
    destruct (parse_once p0 s) as [[o r|e r]| | |]; cbn [bind]; auto. now rewrite H1'.
  Qed.

  Lemma map_coherent {O E U} (p : dparser S O E) (f : O -> U) : coherent p -> coherent (Map p f).
  Proof. intros H s. cbn. unfold map_parse, map_parse_once. now rewrite H. Qed.
  Lemma map_err_coherent {O E U} (p : dparser S O E) (f : E -> U) : coherent p -> coherent (MapErr p f).
  Proof. intros H s. cbn. unfold map_err_parse, map_err_parse_once. now rewrite H. Qed.
  Lemma and_then_coherent {O E O' E'} (from : E -> E') (p : dparser S O E) (f : O -> result O' E') :
    coherent p -> coherent (AndThen from p f).
  Proof. intros H s. cbn. unfold and_then_parse, and_then_parse_once. now rewrite H. Qed.
  Lemma unify_coherent {E T0 T1 T} (i0 : T0 -> T) (i1 : T1 -> T) (p : dparser S (Either T0 T1) E) :
    coherent p -> coherent (Unify i0 i1 p).
  Proof.
    intros H s. cbn. unfold unify_parse, unify_parse_once. rewrite H.
    destruct (parse_once p s) as [[[o|o] r|e r]| | |]; reflexivity.
  Qed.
  Lemma unify_err_coherent {O T0 T1 T} (i0 : T0 -> T) (i1 : T1 -> T) (p : dparser S O (Either T0 T1)) :
    coherent p -> coherent (UnifyErr i0 i1 p).
  Proof.
    intros H s. cbn. unfold unify_err_parse, unify_err_parse_once. rewrite H.
    destruct (parse_once p s) as [[o r|[e|e] r]| | |]; reflexivity.
  Qed.
  Lemma ref_coherent {O E} (p : dparser S O E) : coherent (Ref p).
  Proof. intros s. reflexivity. Qed.
  Lemma boxed_coherent {O E} (p : dparser S O E) : coherent p -> coherent (Boxed p).
  Proof. intros H s. apply H. Qed.
  Lemma optional_coherent {O E} `{ParseError E} (p : dparser S O E) : coherent p -> coherent (Optional p).
  Proof. intros H' s. cbn. unfold optional_parse, optional_parse_once. cbv zeta. now rewrite H'. Qed.
  Lemma repeat_coherent {O E} `{ParseError E} fuel (p : dparser S O E) : coherent (Repeat fuel p).
  Proof. intros s. reflexivity. Qed.
  Lemma closure_coherent {O E} (f : pfun S O E) : coherent (closure f).
  Proof. intros s. reflexivity. Qed.
End Coherence.

(** ** Associativity *)
Section Assoc.
  Context {S A : Type} {RS : RewindSequence S A}.
  Lemma sequence_assoc {O0 E0 O1 E1 O2 E2}
    (a : behaviour S O0 E0) (b : behaviour S O1 E1) (c : behaviour S O2 E2) s v :
    sequence (sequence a b) c s v -> sequence a (sequence b c) s (rebracket v).
  Proof.
    intros H. inversion H as [s1 x m y r H1 H2|s1 e H1|s1 e H1|s1 k H1|s1 x m e H1 H2|s1 x m e H1 H2|s1 x m k H1 H2];
      subst; clear H; try (inversion H1; subst; clear H1);
      cbn; eauto 8 using sq_ok, sq_miss1, sq_cut1, sq_crash1, sq_miss2, sq_cut2, sq_crash2.
  Qed.

  Lemma sequence_assoc_back {O0 E0 O1 E1 O2 E2}
    (a : behaviour S O0 E0) (b : behaviour S O1 E1) (c : behaviour S O2 E2) s w :
    sequence a (sequence b c) s w -> exists v, sequence (sequence a b) c s v /\ rebracket v = w.
  Proof.
    intros H. inversion H as [s1 x m y r H1 H2|s1 e H1|s1 e H1|s1 k H1|s1 x m e H1 H2|s1 x m e H1 H2|s1 x m k H1 H2];
      subst; clear H.
    - inversion H2; subst. exists (Succ ((x, x0), y0) r). split; auto.
      econstructor; eauto. econstructor; eauto.
    - exists (Missed (First (First e))). split; auto. econstructor. econstructor; eauto.
    - exists (Cut (First (First e))). split; auto. econstructor. econstructor; eauto.
    - exists (Crash k). split; auto. eapply sq_crash1. econstructor; eauto.
    - inversion H2; subst.
      + exists (Missed (First (Last e0))). split; auto. eapply sq_miss1. eapply sq_miss2; eauto.
      + exists (Missed (Last e0)). split; auto. eapply sq_miss2; eauto. econstructor; eauto.
    - inversion H2; subst.
      + exists (Cut (First (Last e0))). split; auto. eapply sq_cut1. eapply sq_cut2; eauto.
      + exists (Cut (Last e0)). split; auto. eapply sq_cut2; eauto. econstructor; eauto.
    - inversion H2; subst.
      + exists (Crash k). split; auto. eapply sq_crash1. eapply sq_crash2; eauto.
      + exists (Crash k). split; auto. eapply sq_crash2; eauto. econstructor; eauto.
  Qed.
End Assoc.
