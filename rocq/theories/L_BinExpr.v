(** * L_BinExpr: proofs about BinExprParser. *)
From Verif Require Export L_Base L_Comb L_Comb2 M_BinExpr S_BinExpr.


(** ** Uniqueness and existence of the tree *)
Section Trees.
  Context {T Op : Type} `{Operator Op}.
  Notation tree := (tree T Op).

  (** All operators of a tree that respects precedences lie above its root. *)
  Lemma respects_all (t : tree) :
    respects t -> forall c, root t = Some c ->
    Forall (fun p => precedence c <= precedence (fst p)) (snd (reading t)).
  Proof.
    induction t as [x|l IHl o r IHr]; intros Hw c Hc; cbn in *; [constructor|].
    injection Hc as <-. destruct Hw as [Hl [Hr [Hlo Hro]]].
    apply Forall_app. split; [|constructor; [cbn; lia|]].
    - destruct l as [x|l1 o1 l2]; [constructor|].
      specialize (IHl Hl o1 eq_refl). specialize (Hlo o1 eq_refl). unfold left_ok in Hlo.
      eapply Forall_impl; [|exact IHl]. intros p Hp. cbn in Hp. lia.
    - destruct r as [x|l1 o1 l2]; [constructor|].
      specialize (IHr Hr o1 eq_refl). specialize (Hro o1 eq_refl). unfold right_ok in Hro.
      eapply Forall_impl; [|exact IHr]. intros p Hp. cbn in Hp. lia.
  Qed.

  Lemma respects_left (l : tree) o :
    respects l -> (forall c, root l = Some c -> left_ok c o) ->
    Forall (fun p => left_ok (fst p) o) (snd (reading l)).
  Proof.
    revert o. induction l as [x|l1 IH1 o1 l2 IH2]; intros o Hw Hc; cbn in *; [constructor|].
    destruct Hw as [H1 [H2 [H3 H4]]]. specialize (Hc o1 eq_refl).
    apply Forall_app. split; [|constructor; [exact Hc|]].
    - apply IH1; auto. intros c Hr. specialize (H3 c Hr). unfold left_ok in *.
      intuition (try lia).
    - destruct l2 as [x|a o2 b]; [constructor|].
      specialize (H4 o2 eq_refl). apply IH2; auto. cbn. intros c Hr. injection Hr as <-.
      unfold left_ok, right_ok in *. destruct (associativity o1) eqn:E1; intuition (try lia; try congruence).
  Qed.

  Lemma respects_right (r : tree) o :
    respects r -> (forall c, root r = Some c -> right_ok c o) ->
    Forall (fun p => right_ok (fst p) o) (snd (reading r)).
  Proof.
    intros Hw Hc. destruct r as [x|l1 o1 l2]; [constructor|].
    pose proof (respects_all _ Hw _ eq_refl) as Ha. specialize (Hc o1 eq_refl).
    eapply Forall_impl; [|exact Ha]. intros p Hp. cbn in Hp. unfold right_ok in *.
    destruct (Nat.eq_dec (precedence o) (precedence (fst p))); intuition lia.
  Qed.

  Lemma ok_exclusive a b : left_ok a b -> right_ok b a -> False.
  Proof. unfold left_ok, right_ok. intuition (try lia; try congruence). Qed.
  Lemma ok_total a b : left_ok a b \/ right_ok b a.
  Proof.
    unfold left_ok, right_ok. destruct (associativity a) eqn:E;
    destruct (Nat.lt_trichotomy (precedence a) (precedence b)) as [|[|]]; tauto || intuition lia.
  Qed.

  Lemma split_twice {X} (a b c d : list X) x y :
    a ++ x :: b = c ++ y :: d ->
    (a = c /\ x = y /\ b = d) \/
    (exists m, a = c ++ y :: m /\ d = m ++ x :: b) \/
    (exists m, c = a ++ x :: m /\ b = m ++ y :: d).
  Proof.
    revert c. induction a as [|z a IH]; intros [|w c] Heq; cbn in *.
    - injection Heq as ? ?; subst. auto.
    - injection Heq as ? ?; subst. right; right. eauto.
    - injection Heq as ? ?; subst. right; left. eauto.
    - injection Heq as ? Heq; subst. destruct (IH c Heq) as [[? [? ?]]|[[m [? ?]]|[m [? ?]]]]; subst; eauto 8.
  Qed.

  Lemma respects_unique (t1 t2 : tree) :
    respects t1 -> respects t2 -> reading t1 = reading t2 -> t1 = t2.
  Proof.
    revert t2. induction t1 as [x|l1 IH1 o1 r1 IH2]; intros [y|l2 o2 r2] W1 W2 E; cbn in *.
    - congruence.
    - injection E as _ E. destruct (snd (reading l2)); discriminate.
    - injection E as _ E. destruct (snd (reading l1)); discriminate.
    - injection E as E1 E2. destruct W1 as [A1 [A2 [A3 A4]]], W2 as [B1 [B2 [B3 B4]]].
      apply split_twice in E2. destruct E2 as [[Ea [Eb Ec]]|[[m [Ea Eb]]|[m [Ea Eb]]]].
      + injection Eb as -> Eb.
        rewrite (IH1 l2), (IH2 r2); auto.
        * destruct (reading r1), (reading r2); cbn in *; congruence.
        * destruct (reading l1), (reading l2); cbn in *; congruence.
      + exfalso. (* o2 lies in l1, and o1 in r2 *)
        pose proof (respects_left _ _ A1 A3) as L. rewrite Ea in L. apply Forall_app in L.
        destruct L as [_ L]. inversion L; subst. cbn in *.
        pose proof (respects_right _ _ B2 B4) as R. rewrite Eb in R. apply Forall_app in R.
        destruct R as [_ R]. inversion R; subst. cbn in *. eapply ok_exclusive; eauto.
      + exfalso.
        pose proof (respects_left _ _ B1 B3) as L. rewrite Ea in L. apply Forall_app in L.
        destruct L as [_ L]. inversion L; subst. cbn in *.
        pose proof (respects_right _ _ A2 A4) as R. rewrite Eb in R. apply Forall_app in R.
        destruct R as [_ R]. inversion R; subst. cbn in *. eapply ok_exclusive; eauto.
  Qed.
End Trees.

(** ** The stack algorithm *)
Section Stack.
  Context {T Op Expr : Type} `{Operator Op}.
  Context (from_term : T -> Expr) (from_bin : Expr -> Op -> Expr -> Expr).
  Context (usize_max : nat) (overflow_checks : bool).
  Notation tree := (tree T Op).
  Notation bld := (build from_term from_bin).

  (** Operators whose next precedence does not overflow. *)
  Definition in_range (o : Op) : Prop := associativity o = Left -> precedence o < usize_max.

  Lemma next_precedence_spec o :
    in_range o -> exists n, next_precedence usize_max overflow_checks o = Ret n /\
      forall p, (n <= precedence p -> right_ok p o) /\ (precedence p < n -> left_ok o p).
  Proof.
    intros Hr. unfold next_precedence, right_ok, left_ok.
    destruct (associativity o) eqn:E.
    - specialize (Hr E). destruct (Nat.ltb_spec (precedence o) usize_max); [|lia].
      eexists; split; [reflexivity|]. intros p. split; intros; [lia|].
      destruct (Nat.eq_dec (precedence p) (precedence o)); intuition lia.
    - eexists; split; [reflexivity|]. intros p. split; intros; [|lia].
      destruct (Nat.eq_dec (precedence p) (precedence o)); intuition lia.
  Qed.

  (** A stack of trees, top first, on which [rhs] may be put. *)
  Fixpoint stack_ok (st : list (tree * Op)) (rhs : tree) : Prop :=
    match st with
    | [] => respects rhs
    | (l, o) :: st' =>
        respects rhs /\ (forall c, root rhs = Some c -> right_ok c o) /\
        respects l /\ (forall c, root l = Some c -> left_ok c o) /\
        in_range o /\
        stack_ok st' l /\ match st' with [] => True | (_, o') :: _ => right_ok o o' end
    end.

  Definition img (st : list (tree * Op)) : list (Expr * Op) := map (fun x => (bld (fst x), snd x)) st.

  (** Everything on the stack and [rhs], read from left to right. *)
  Fixpoint stack_reading (st : list (tree * Op)) (rhs : T * list (Op * T)) : T * list (Op * T) :=
    match st with
    | [] => rhs
    | (l, o) :: st' =>
        stack_reading st' (fst (reading l), snd (reading l) ++ (o, fst rhs) :: snd rhs)
    end.

  Lemma stack_reading_app st x ps qs :
    stack_reading st (x, ps ++ qs) = (fst (stack_reading st (x, ps)), snd (stack_reading st (x, ps)) ++ qs).
  Proof.
    revert x ps qs. induction st as [|[l o] st IH]; intros x ps qs; cbn; auto.
    rewrite <- IH. f_equal. f_equal. rewrite <- app_assoc. reflexivity.
  Qed.

  Lemma reduce_all_spec st rhs :
    stack_ok st rhs ->
    exists t, reduce_all from_bin (img st) (bld rhs) = bld t /\ respects t /\
         reading t = stack_reading st (reading rhs).
  Proof.
    revert rhs. induction st as [|[l o] st IH]; intros rhs Hok; cbn in *.
    - exists rhs. auto.
    - destruct Hok as [H1 [H2 [H3 [H4 [H5 [H6 H7]]]]]].
      destruct (IH (Node l o rhs)) as [t [T1 [T2 T3]]].
      + destruct st as [|[l' o'] st]; cbn in *.
        * auto.
        * destruct H6 as [A1 [A2 [A3 [A4 [A5 [A6 A7]]]]]]. repeat split; auto.
          intros c Hc. injection Hc as <-. exact H7.
      + exists t. repeat split; auto.
  Qed.

  Lemma insert_spec st rhs op x :
    stack_ok st rhs -> in_range op -> (forall c, root rhs = Some c -> left_ok c op) ->
    exists st' , 
      insert_loop from_bin usize_max overflow_checks (img st) (bld rhs) op (bld (Leaf x))
        = Ret (img st', bld (Leaf x)) /\
      stack_ok st' (Leaf x) /\
      stack_reading st' (x, []) = (fst (stack_reading st (reading rhs)), snd (stack_reading st (reading rhs)) ++ [(op, x)]).
  Proof.
    revert rhs. induction st as [|[l o] st IH]; intros rhs Hok Hop Hrt; cbn [insert_loop img map].
    - exists [(rhs, op)]. split; [reflexivity|]. cbn in *. repeat split; auto. discriminate.
    - cbn [fst snd].
      destruct Hok as [H1 [H2 [H3 [H4 [H5 [H6 H7]]]]]].
      destruct (next_precedence_spec o H5) as [n [Hn Hspec]]. rewrite Hn. cbn [bind].
      destruct (Hspec op) as [Hge Hlt]. destruct (Nat.leb_spec n (precedence op)) as [Hle|Hgt].
      + exists ((rhs, op) :: (l, o) :: st). split; [reflexivity|]. split.
        * cbn. repeat split; auto. discriminate.
        * cbn [stack_reading fst snd]. rewrite <- stack_reading_app. f_equal. f_equal.
          rewrite <- app_assoc. reflexivity.
      + destruct (IH (Node l o rhs)) as [st' [S1 [S2 S3]]]; auto.
        * destruct st as [|[l' o'] st]; cbn in *.
          -- auto.
          -- destruct H6 as [A1 [A2 [A3 [A4 [A5 [A6 A7]]]]]]. repeat split; auto.
             intros c Hc. injection Hc as <-. exact H7.
        * cbn. intros c Hc. injection Hc as <-. auto.
        * exists st'. repeat split; auto.
  Qed.
End Stack.

(** ** The whole parser *)
Section Whole.
  Context {S A : Type} {RS : RewindSequence S A} {reach : S -> S -> Prop} (LR : lawful_rewind reach).
  Context {T TE Op OE Expr : Type} {PT : ParseError TE} {PO : ParseError OE} {OP : Operator Op}.
  Context (from_term : T -> Expr) (from_bin : Expr -> Op -> Expr -> Expr).
  Context (usize_max : nat) (overflow_checks : bool).
  Context (term : dparser S T TE) (op : dparser S Op OE).
  Context (Hft : forward reach (parse term)) (Hfo : forward reach (parse op)).
  Context (Hrange : forall s o r, parse op s = Ret (Ok o r) -> in_range usize_max o).

  Notation loop := (bin_loop from_term from_bin usize_max overflow_checks).
  Notation img := (img from_term from_bin).
  Notation pair_ := (sequence (behaves (parse op)) (behaves (parse term))).

  Lemma loop_steps s ps r :
    many pair_ s ps r -> forall fuel st x, stack_ok usize_max st (Leaf x) ->
    exists st' x', loop (length ps + fuel) term op 0 (img st) (from_term x) s
                   = loop fuel term op 0 (img st') (from_term x') r /\
      stack_ok usize_max st' (Leaf x') /\
      stack_reading st' (x', []) = (fst (stack_reading st (x, [])), snd (stack_reading st (x, [])) ++ ps).
  Proof.
    induction 1 as [s|s v m ps r Hv Hm IH]; intros fuel st x Hok.
    - exists st, x. cbn. rewrite app_nil_r. repeat split; auto. now destruct (stack_reading st (x, [])).
    - inversion Hv; subst. cbn [length plus bin_loop].
      match goal with H : behaves (parse op) _ _ |- _ => unfold behaves in H; rewrite H end. cbn [bind Nat.leb]. match goal with H : behaves (parse term) _ _ |- _ => unfold behaves in H; rewrite H end. cbn [bind].
      destruct (@insert_spec T Op Expr OP from_term from_bin usize_max overflow_checks st (Leaf x) x0 y Hok)
        as [st1 [I1 [I2 I3]]].
      + eapply Hrange; eauto.
      + discriminate.
      + change (from_term x) with (build from_term from_bin (Leaf x) (Op := Op)).
        change (from_term y) with (build from_term from_bin (Leaf y) (Op := Op)).
        rewrite I1. cbn [bind]. destruct (IH fuel st1 y I2) as [st' [x' [J1 [J2 J3]]]].
        exists st', x'. split; [exact J1|]. split; auto. rewrite J3, I3. cbn [fst snd reading].
        rewrite <- app_assoc. reflexivity.
  Qed.

  Definition loop_stop (r : S) (st : list (tree T Op * Op)) (x : T) fuel (v : verdict S (Op * T) (Either OE TE)) : Prop :=
    match v with
    | Succ _ _ => False
    | Missed e => loop (1 + fuel) term op 0 (img st) (from_term x) r
                  = Ret (Ok (reduce_all from_bin (img st) (from_term x), RErr e) r)
    | Cut e => should_terminate e = true /\
               exists l, loop (1 + fuel) term op 0 (img st) (from_term x) r = Ret (Err e l)
    | Crash CPanic => loop (1 + fuel) term op 0 (img st) (from_term x) r = Panic
    | Crash CUB => loop (1 + fuel) term op 0 (img st) (from_term x) r = UB
    | Crash CFuel => loop (1 + fuel) term op 0 (img st) (from_term x) r = OutOfFuel
    end.

  Lemma loop_stops r v st x fuel :
    pair_ r v -> (forall o m, v <> Succ o m) -> loop_stop r st x fuel v.
  Proof.
    intros Hp Hns. unfold loop_stop. cbn [plus bin_loop].
    inversion Hp; subst; try (exfalso; eapply Hns; reflexivity).
    - destruct H as [Ht [l Hl]]. rewrite Hl. cbn [bind]. rewrite Ht.
      rewrite (rewind_err LR _ Hfo Hl). reflexivity.
    - destruct H as [Ht [l Hl]]. rewrite Hl. cbn [bind]. rewrite Ht. split; eauto. exists l. reflexivity.
    - destruct k; unfold behaves in H; rewrite H; reflexivity.
    - destruct H0 as [Ht [l Hl]]. unfold behaves in H. rewrite H. cbn [bind Nat.leb]. rewrite Hl. cbn [bind]. rewrite Ht.
      cbn [negb]. assert (reach r l) as Hreach.
      { eapply (reach_trans LR); [exact (@Hfo _ _ H)|exact (@Hft _ _ Hl)]. }
      rewrite (rewind_anchor LR _ _ Hreach). reflexivity.
    - destruct H0 as [Ht [l Hl]]. unfold behaves in H. rewrite H. cbn [bind Nat.leb]. rewrite Hl. cbn [bind]. rewrite Ht.
      cbn [negb]. split; auto. exists l. reflexivity.
    - unfold behaves in H. rewrite H. cbn [bind Nat.leb].
      destruct k; unfold behaves in H0; rewrite H0; reflexivity.
  Qed.

  Lemma pair_total s : exists v, pair_ s v.
  Proof.
    destruct (parse op s) as [[o m|e l]| | |] eqn:Ho.
    - destruct (parse term m) as [[t r|e l]| | |] eqn:Ht.
      + eexists. eapply sq_ok; cbn; eauto.
      + destruct (should_terminate e) eqn:Hte.
        * eexists. eapply sq_cut2; cbn; eauto.
        * eexists. eapply sq_miss2; cbn; eauto.
      + exists (Crash CPanic). eapply sq_crash2; cbn; eauto.
      + exists (Crash CUB). eapply sq_crash2; cbn; eauto.
      + exists (Crash CFuel). eapply sq_crash2; cbn; eauto.
    - destruct (should_terminate e) eqn:Hte.
      + eexists. eapply sq_cut1; cbn; eauto.
      + eexists. eapply sq_miss1; cbn; eauto.
    - exists (Crash CPanic). apply sq_crash1; cbn; auto.
    - exists (Crash CUB). apply sq_crash1; cbn; auto.
    - exists (Crash CFuel). apply sq_crash1; cbn; auto.
  Qed.

  (** Within any number of pairs the chain either stops or goes on. *)
  Lemma chain_total n s :
    (exists ps r, many pair_ s ps r /\ length ps = n) \/
    (exists ps r v, many pair_ s ps r /\ length ps < n /\ pair_ r v /\ forall o m, v <> Succ o m).
  Proof.
    revert s. induction n as [|n IH]; intros s.
    - left. exists [], s. split; [constructor|auto].
    - destruct (pair_total s) as [v Hv]. destruct v as [o m|e|e|k].
      + destruct (IH m) as [[ps [r [Hm Hl]]]|[ps [r [v [Hm [Hl [Hp Hns]]]]]]].
        * left. exists (o :: ps), r. split; [econstructor; eauto|cbn; lia].
        * right. exists (o :: ps), r, v. split; [econstructor; eauto|]. cbn. repeat split; auto. lia.
      + right. exists [], s, (Missed e). cbn. repeat split; [constructor|lia|auto|discriminate].
      + right. exists [], s, (Cut e). cbn. repeat split; [constructor|lia|auto|discriminate].
      + right. exists [], s, (Crash k). cbn. repeat split; [constructor|lia|auto|discriminate].
  Qed.

  Notation bin fuel := (BinExpr from_term from_bin usize_max overflow_checks fuel term op).

  Lemma bin_after_term s t m ps r v fuel :
    parse term s = Ret (Ok t m) -> many pair_ m ps r -> length ps < fuel ->
    pair_ r v -> (forall o m, v <> Succ o m) ->
    exists tr, respects tr /\ reading tr = (t, ps) /\
    behaves (parse (bin fuel)) s
      match v with
      | Succ _ _ => Crash CFuel
      | Missed e => Succ (build from_term from_bin tr, e) r
      | Cut e => Cut e
      | Crash k => Crash k
      end.
  Proof.
    intros Ht Hm Hl Hp Hns.
    replace fuel with (length ps + (1 + (fuel - length ps - 1))) by lia.
    destruct (loop_steps _ _ _ Hm (1 + (fuel - length ps - 1)) [] t) as [st [x [H1 [H2 H3]]]]; [exact I|].
    destruct (@reduce_all_spec T Op Expr OP from_term from_bin usize_max st (Leaf x) H2) as [tr [T1 [T2 T3]]].
    exists tr. split; auto. split; [rewrite T3; cbn; rewrite H3; reflexivity|].
    pose proof (loop_stops _ _ st x (fuel - length ps - 1) Hp Hns) as Hstop. unfold loop_stop in Hstop.
    cbn [parse BinExpr]. unfold behaves. unfold bin_expr_parse, parse_impl. rewrite Ht. cbn [bind].
    change (@nil (Expr * Op)) with (img (@nil (tree T Op * Op))). rewrite H1.
    change (build from_term from_bin (Leaf x) (Op := Op)) with (from_term x) in T1.
    destruct v as [o q|e|e|[]].
    - exfalso. eapply Hns; reflexivity.
    - rewrite Hstop. cbn. now rewrite T1.
    - destruct Hstop as [Hte [l Hl']]. split; auto. exists l. rewrite Hl'. reflexivity.
    - now rewrite Hstop.
    - now rewrite Hstop.
    - now rewrite Hstop.
  Qed.


  Lemma tree_unique (t1 t2 : tree T Op) :
    respects t1 -> respects t2 -> reading t1 = reading t2 -> t1 = t2.
  Proof. intros. eapply respects_unique; eauto. Qed.

  Ltac grab :=
    match goal with Hmm' : many pair_ _ _ ?r, Hpp' : pair_ ?r _ |- _ => rename Hmm' into Hmm; rename Hpp' into Hpp end.

  Lemma bin_complete s v :
    operator_expression from_term from_bin (behaves (parse term)) (behaves (parse op)) s v ->
    exists n, forall fuel, n < fuel -> behaves (parse (bin fuel)) s v.
  Proof.
    intros Hv. inversion Hv; subst.
    - inversion H0; subst. grab. exists (length ps). intros fuel Hf.
      destruct (bin_after_term _ _ _ _ _ _ fuel H Hmm Hf Hpp) as [tr' [R1 [R2 R3]]]; [discriminate|].
      rewrite (tree_unique tr tr'); auto. congruence.
    - exists 0. intros fuel _. destruct H as [Ht [l Hl]]. split; [exact Ht|]. exists l.
      cbn. unfold bin_expr_parse, parse_impl. rewrite Hl. reflexivity.
    - exists 0. intros fuel _. destruct H as [Ht [l Hl]]. split; [exact Ht|]. exists l.
      cbn. unfold bin_expr_parse, parse_impl. rewrite Hl. reflexivity.
    - exists 0. intros fuel _. destruct k; unfold behaves in *; cbn; unfold bin_expr_parse, parse_impl; rewrite H; reflexivity.
    - inversion H0; subst. grab. exists (length vs). intros fuel Hf.
      destruct (bin_after_term _ _ _ _ _ _ fuel H Hmm Hf Hpp) as [tr' [R1 [R2 R3]]]; [discriminate|]. exact R3.
    - inversion H0; subst. grab. exists (length vs). intros fuel Hf.
      destruct (bin_after_term _ _ _ _ _ _ fuel H Hmm Hf Hpp) as [tr' [R1 [R2 R3]]]; [discriminate|]. exact R3.
  Qed.

  Lemma bin_sound fuel s v :
    behaves (parse (bin fuel)) s v -> v <> Crash CFuel ->
    operator_expression from_term from_bin (behaves (parse term)) (behaves (parse op)) s v.
  Proof.
    intros Hb Hv.
    destruct (behaves_total (parse term) s) as [w Hw]. destruct w as [t m|e|e|k].
    - destruct (chain_total fuel m) as [[ps [r [Hm Hl]]]|[ps [r [w [Hm [Hl [Hp Hns]]]]]]].
      + exfalso. apply Hv. eapply behaves_functional; [exact Hb|].
        destruct (loop_steps _ _ _ Hm 0 [] t) as [st [x [H1 [H2 H3]]]]; [exact I|].
        cbn. unfold bin_expr_parse, parse_impl. unfold behaves in Hw. rewrite Hw. cbn [bind].
        replace fuel with (length ps + 0) by lia. change (@nil (Expr * Op)) with (img (@nil (tree T Op * Op))).
        rewrite H1. reflexivity.
      + destruct (bin_after_term _ _ _ _ _ _ fuel Hw Hm Hl Hp Hns) as [tr [R1 [R2 R3]]].
        rewrite (behaves_functional Hb R3) in *.
        destruct w as [o q|e|e|k].
        * exfalso. eapply Hns; reflexivity.
        * eapply oe_ok; eauto. econstructor; eauto.
        * eapply oe_cut2; eauto. econstructor; eauto.
        * eapply oe_crash2; eauto. econstructor; eauto.
    - assert (behaves (parse (bin fuel)) s (Missed (Last e))) as Hb2.
      { destruct Hw as [Ht [l Hl]]. split; [exact Ht|]. exists l.
        cbn. unfold bin_expr_parse, parse_impl. rewrite Hl. reflexivity. }
      rewrite (behaves_functional Hb Hb2). now constructor.
    - assert (behaves (parse (bin fuel)) s (Cut (Last e))) as Hb2.
      { destruct Hw as [Ht [l Hl]]. split; [exact Ht|]. exists l.
        cbn. unfold bin_expr_parse, parse_impl. rewrite Hl. reflexivity. }
      rewrite (behaves_functional Hb Hb2). now constructor.
    - assert (behaves (parse (bin fuel)) s (Crash k)) as Hb2.
      { destruct k; unfold behaves in *; cbn; unfold bin_expr_parse, parse_impl; rewrite Hw; reflexivity. }
      rewrite (behaves_functional Hb Hb2). now constructor.
  Qed.

  Lemma bin_exact s v :
    v <> Crash CFuel ->
    (exists fuel, behaves (parse (bin fuel)) s v) <->
    operator_expression from_term from_bin (behaves (parse term)) (behaves (parse op)) s v.
  Proof.
    intros Hv. split.
    - intros [fuel Hb]. eapply bin_sound; eauto.
    - intros Ho. destruct (bin_complete _ _ Ho) as [n Hn]. exists (1 + n). apply Hn. lia.
  Qed.

  Lemma many_size (size : S -> nat) :
    (forall s o m t r, parse op s = Ret (Ok o m) -> parse term m = Ret (Ok t r) -> size r < size s) ->
    forall s ps r, many pair_ s ps r -> length ps + size r <= size s.
  Proof.
    intros Hs s ps r. induction 1 as [s|s v m ps r Hv Hm IH]; cbn; [lia|].
    inversion Hv; subst. unfold behaves in *.
    match goal with H : parse op _ = _, K : parse term _ = _ |- _ => specialize (Hs _ _ _ _ _ H K) end. lia.
  Qed.

  Lemma bin_terminates (size : S -> nat) :
    (forall s o m t r, parse op s = Ret (Ok o m) -> parse term m = Ret (Ok t r) -> size r < size s) ->
    (forall s, parse op s <> OutOfFuel) -> (forall s, parse term s <> OutOfFuel) ->
    forall s t m fuel, parse term s = Ret (Ok t m) -> size m < fuel -> parse (bin fuel) s <> OutOfFuel.
  Proof.
    intros Hs Ho Ht s t m fuel Hp Hf.
    destruct (chain_total fuel m) as [[ps [r [Hm Hl]]]|[ps [r [w [Hm [Hl [Hpp Hns]]]]]]].
    - pose proof (many_size size Hs _ _ _ Hm). lia.
    - destruct (bin_after_term _ _ _ _ _ _ fuel Hp Hm Hl Hpp Hns) as [tr [R1 [R2 R3]]].
      destruct w as [o q|e|e|[]].
      + exfalso. eapply Hns; reflexivity.
      + unfold behaves in R3. rewrite R3. discriminate.
      + destruct R3 as [_ [l R3]]. rewrite R3. discriminate.
      + unfold behaves in R3. rewrite R3. discriminate.
      + unfold behaves in R3. rewrite R3. discriminate.
      + exfalso. inversion Hpp; subst; unfold behaves in *; [eapply Ho|eapply Ht]; eauto.
  Qed.

  Lemma bin_no_crash_of_its_own fuel s k :
    k <> CFuel -> behaves (parse (bin fuel)) s (Crash k) ->
    exists s', behaves (parse term) s' (Crash k) \/ behaves (parse op) s' (Crash k).
  Proof.
    intros Hk Hb. assert (Crash k <> @Crash S (Expr * Either OE TE) (Either OE TE) CFuel) as Hv by congruence.
    pose proof (bin_sound _ _ _ Hb Hv) as Ho. inversion Ho; subst; [eauto|].
    match goal with H : repetition _ _ _ |- _ => inversion H; subst end.
    match goal with H : pair_ _ _ |- _ => inversion H; subst; eauto end.
  Qed.

  Lemma pairs_swallow_nothing s t m ps r e fuel :
    parse term s = Ret (Ok t m) -> many pair_ m ps r -> length ps < fuel ->
    pair_ r (Cut e) -> behaves (parse (bin fuel)) s (Cut e).
  Proof.
    intros H1 H2 H3 H4.
    destruct (bin_after_term _ _ _ _ _ _ fuel H1 H2 H3 H4) as [tr' [R1 [R2 R3]]]; [discriminate|]. exact R3.
  Qed.
End Whole.

(** ** Location and parse_once *)
Section More.
  Context {S A : Type} {RS : RewindSequence S A} {reach : S -> S -> Prop} (LR : lawful_rewind reach).
  Context {T TE Op OE Expr : Type} {PT : ParseError TE} {PO : ParseError OE} {OP : Operator Op}.
  Context (from_term : T -> Expr) (from_bin : Expr -> Op -> Expr -> Expr).
  Context (usize_max : nat) (overflow_checks : bool).
  Notation bin fuel term op := (BinExpr from_term from_bin usize_max overflow_checks fuel term op).

  Lemma loop_forward (term : dparser S T TE) (op : dparser S Op OE) prec :
    forward reach (parse term) -> forward reach (parse op) ->
    forall fuel stack rhs s r,
    bin_loop from_term from_bin usize_max overflow_checks fuel term op prec stack rhs s = Ret r ->
    reach s (location r).
  Proof.
    intros Hft Hfo. induction fuel as [|fuel IH]; intros stack rhs s r; cbn; [discriminate|].
    destruct (parse op s) as [[o m|e l]| | |] eqn:Ho; cbn; try discriminate.
    - pose proof (Hfo _ _ Ho) as R1. cbn in R1.
      destruct (prec <=? precedence o); [|injection 1 as <-; exact R1].
      destruct (parse term m) as [[t r'|e l]| | |] eqn:Ht; cbn; try discriminate.
      + pose proof (Hft _ _ Ht) as R2. cbn in R2.
        destruct (insert_loop _ _ _ _ _ _ _) as [[st' rhs']| | |]; cbn; try discriminate.
        intros Hl. eapply (reach_trans LR); [exact R1|]. eapply (reach_trans LR); [exact R2|]. eapply IH; eauto.
      + pose proof (Hft _ _ Ht) as R2. cbn in R2.
        assert (reach s l) as R3 by (eapply (reach_trans LR); eauto).
        destruct (should_terminate e); cbn.
        * injection 1 as <-. exact R3.
        * rewrite (rewind_anchor LR _ _ R3). cbn. injection 1 as <-. apply (reach_refl LR).
    - pose proof (Hfo _ _ Ho) as R1. cbn in R1. destruct (should_terminate e); cbn.
      + injection 1 as <-. exact R1.
      + rewrite (rewind_anchor LR _ _ R1). cbn. injection 1 as <-. apply (reach_refl LR).
  Qed.

  Lemma bin_forward fuel (term : dparser S T TE) (op : dparser S Op OE) :
    forward reach (parse term) -> forward reach (parse op) -> forward reach (parse (bin fuel term op)).
  Proof.
    intros Hft Hfo s r. cbn. unfold bin_expr_parse, parse_impl.
    destruct (parse term s) as [[t m|e l]| | |] eqn:Ht; cbn; try discriminate.
    - pose proof (Hft _ _ Ht) as R1. cbn in R1.
      destruct (bin_loop _ _ _ _ _ _ _ _ _ _ _) as [[[x reason] r'|e l]| | |] eqn:Hb; cbn; try discriminate.
      + pose proof (loop_forward _ _ _ Hft Hfo _ _ _ _ _ Hb) as R2. cbn in R2.
        destruct reason; try discriminate. injection 1 as <-. eapply (reach_trans LR); eauto.
      + pose proof (loop_forward _ _ _ Hft Hfo _ _ _ _ _ Hb) as R2. cbn in R2.
        injection 1 as <-. eapply (reach_trans LR); eauto.
    - pose proof (Hft _ _ Ht) as R1. injection 1 as <-. exact R1.
  Qed.

  Lemma bin_coherent fuel (term : dparser S T TE) (op : dparser S Op OE) : coherent (bin fuel term op).
  Proof. intros s. reflexivity. Qed.

  (** Same verdicts of the parts, same verdicts of the whole, at every budget. *)
  Lemma loop_cong1 (term term' : dparser S T TE) (op op' : dparser S Op OE) :
    forward reach (parse term) -> forward reach (parse op) ->
    forward reach (parse term') -> forward reach (parse op') ->
    same_behaviour (behaves (parse term)) (behaves (parse term')) ->
    same_behaviour (behaves (parse op)) (behaves (parse op')) ->
    forall fuel stack rhs s v,
    behaves (fun s => bin_loop from_term from_bin usize_max overflow_checks fuel term op 0 stack rhs s) s v ->
    behaves (fun s => bin_loop from_term from_bin usize_max overflow_checks fuel term' op' 0 stack rhs s) s v.
  Proof.
    intros F1 F2 F3 F4 St So. induction fuel as [|fuel IH]; intros stack rhs s v.
    - auto.
    - intros Hb.
      destruct (behaves_total (parse op) s) as [w Hw]. pose proof (proj1 (So _ _) Hw) as Hw'.
      destruct w as [o m|e|e|k].
      + unfold behaves in Hw, Hw'.
        destruct (behaves_total (parse term) m) as [u Hu]. pose proof (proj1 (St _ _) Hu) as Hu'.
        destruct u as [t r|e|e|k].
        * unfold behaves in Hu, Hu'.
          destruct (insert_loop from_bin usize_max overflow_checks stack rhs o (from_term t)) as [[st' rhs']| | |] eqn:Hi.
          -- eapply behaves_ext with (p := fun s => bin_loop from_term from_bin usize_max overflow_checks fuel term' op' 0 st' rhs' r).
             { cbn. rewrite Hw'. cbn. rewrite Hu'. cbn. rewrite Hi. reflexivity. }
             apply (IH st' rhs' r v). eapply behaves_ext; [|exact Hb]. cbn. rewrite Hw. cbn. rewrite Hu. cbn. rewrite Hi. reflexivity.
          -- eapply behaves_ext; [|exact Hb]. cbn. rewrite Hw, Hw'. cbn. rewrite Hu, Hu'. cbn. rewrite Hi. reflexivity.
          -- eapply behaves_ext; [|exact Hb]. cbn. rewrite Hw, Hw'. cbn. rewrite Hu, Hu'. cbn. rewrite Hi. reflexivity.
          -- eapply behaves_ext; [|exact Hb]. cbn. rewrite Hw, Hw'. cbn. rewrite Hu, Hu'. cbn. rewrite Hi. reflexivity.
        * destruct Hu as [T1 [l Hl]], Hu' as [_ [l' Hl']].
          eapply behaves_ext; [|exact Hb]. cbn. rewrite Hw, Hw'. cbn. rewrite Hl, Hl'. cbn. rewrite T1. cbn.
          rewrite (rewind_anchor LR), (rewind_anchor LR); [reflexivity| |].
          -- eapply (reach_trans LR); [exact (F4 _ _ Hw')|exact (F3 _ _ Hl')].
          -- eapply (reach_trans LR); [exact (F2 _ _ Hw)|exact (F1 _ _ Hl)].
        * destruct Hu as [T1 [l Hl]], Hu' as [_ [l' Hl']].
          assert (v = Cut (Last e)) as ->.
          { eapply behaves_functional; [exact Hb|]. split; [exact T1|]. exists l. cbn. rewrite Hw. cbn. rewrite Hl. cbn. now rewrite T1. }
          split; [exact T1|]. exists l'. cbn. rewrite Hw'. cbn. rewrite Hl'. cbn. now rewrite T1.
        * eapply behaves_ext; [|exact Hb]. cbn. rewrite Hw, Hw'. cbn.
          destruct k; unfold behaves in Hu, Hu'; rewrite Hu, Hu'; reflexivity.
      + destruct Hw as [T1 [l Hl]], Hw' as [_ [l' Hl']].
        eapply behaves_ext; [|exact Hb]. cbn. rewrite Hl, Hl'. cbn. rewrite T1.
        rewrite (rewind_anchor LR), (rewind_anchor LR); [reflexivity|exact (F4 _ _ Hl')|exact (F2 _ _ Hl)].
      + destruct Hw as [T1 [l Hl]], Hw' as [_ [l' Hl']].
        assert (v = Cut (First e)) as ->.
        { eapply behaves_functional; [exact Hb|]. split; [exact T1|]. exists l. cbn. rewrite Hl. cbn. now rewrite T1. }
        split; [exact T1|]. exists l'. cbn. rewrite Hl'. cbn. now rewrite T1.
      + eapply behaves_ext; [|exact Hb]. cbn.
        destruct k; unfold behaves in Hw, Hw'; rewrite Hw, Hw'; reflexivity.
  Qed.

  Lemma bin_cong1 fuel (term term' : dparser S T TE) (op op' : dparser S Op OE) :
    forward reach (parse term) -> forward reach (parse op) ->
    forward reach (parse term') -> forward reach (parse op') ->
    same_behaviour (behaves (parse term)) (behaves (parse term')) ->
    same_behaviour (behaves (parse op)) (behaves (parse op')) ->
    forall s v, behaves (parse (bin fuel term op)) s v -> behaves (parse (bin fuel term' op')) s v.
  Proof.
    intros F1 F2 F3 F4 St So s v Hb.
    destruct (behaves_total (parse term) s) as [w Hw]. pose proof (proj1 (St _ _) Hw) as Hw'.
    destruct w as [t m|e|e|k].
    - unfold behaves in Hw, Hw'.
      set (L := fun (term : dparser S T TE) (op : dparser S Op OE) s => bin_loop from_term from_bin usize_max overflow_checks fuel term op 0 [] (from_term t) s) in *.
      assert (forall w, behaves (fun s => L term op s) m w -> behaves (fun s => L term' op' s) m w) as HL
        by (intros w; apply loop_cong1; auto).
      destruct (behaves_total (fun s => L term op s) m) as [w Hw2]. pose proof (HL _ Hw2) as Hw2'.
      unfold L in Hw2, Hw2'.
      destruct w as [[x reason] r|e|e|k].
      + eapply behaves_ext; [|exact Hb]. unfold behaves in Hw2, Hw2'. cbn.
        unfold bin_expr_parse, parse_impl. rewrite Hw, Hw'. cbn [bind]. rewrite Hw2, Hw2'. reflexivity.
      + destruct Hw2 as [T1 [l Hl]], Hw2' as [_ [l' Hl']].
        assert (v = Missed e) as ->.
        { eapply behaves_functional; [exact Hb|]. split; [exact T1|]. exists l. cbn.
          unfold bin_expr_parse, parse_impl. rewrite Hw. cbn [bind]. rewrite Hl. reflexivity. }
        split; [exact T1|]. exists l'. cbn. unfold bin_expr_parse, parse_impl. rewrite Hw'. cbn [bind]. rewrite Hl'. reflexivity.
      + destruct Hw2 as [T1 [l Hl]], Hw2' as [_ [l' Hl']].
        assert (v = Cut e) as ->.
        { eapply behaves_functional; [exact Hb|]. split; [exact T1|]. exists l. cbn.
          unfold bin_expr_parse, parse_impl. rewrite Hw. cbn [bind]. rewrite Hl. reflexivity. }
        split; [exact T1|]. exists l'. cbn. unfold bin_expr_parse, parse_impl. rewrite Hw'. cbn [bind]. rewrite Hl'. reflexivity.
      + eapply behaves_ext; [|exact Hb]. cbn. unfold bin_expr_parse, parse_impl. rewrite Hw, Hw'. cbn [bind].
        destruct k; unfold behaves in Hw2, Hw2'; rewrite Hw2, Hw2'; reflexivity.
    - destruct Hw as [T1 [l Hl]], Hw' as [_ [l' Hl']].
      assert (v = Missed (Last e)) as ->.
      { eapply behaves_functional; [exact Hb|]. split; [exact T1|]. exists l. cbn.
        unfold bin_expr_parse, parse_impl. rewrite Hl. reflexivity. }
      split; [exact T1|]. exists l'. cbn. unfold bin_expr_parse, parse_impl. rewrite Hl'. reflexivity.
    - destruct Hw as [T1 [l Hl]], Hw' as [_ [l' Hl']].
      assert (v = Cut (Last e)) as ->.
      { eapply behaves_functional; [exact Hb|]. split; [exact T1|]. exists l. cbn.
        unfold bin_expr_parse, parse_impl. rewrite Hl. reflexivity. }
      split; [exact T1|]. exists l'. cbn. unfold bin_expr_parse, parse_impl. rewrite Hl'. reflexivity.
    - eapply behaves_ext; [|exact Hb]. cbn. unfold bin_expr_parse, parse_impl.
      destruct k; unfold behaves in Hw, Hw'; rewrite Hw, Hw'; reflexivity.
  Qed.

  Lemma bin_cong fuel (term term' : dparser S T TE) (op op' : dparser S Op OE) :
    forward reach (parse term) -> forward reach (parse op) ->
    forward reach (parse term') -> forward reach (parse op') ->
    same_behaviour (behaves (parse term)) (behaves (parse term')) ->
    same_behaviour (behaves (parse op)) (behaves (parse op')) ->
    same_behaviour (behaves (parse (bin fuel term op))) (behaves (parse (bin fuel term' op'))).
  Proof. intros F1 F2 F3 F4 St So s v. split; apply bin_cong1; auto using same_sym. Qed.
End More.

(** ** Every chain has a tree *)
Section Exists.
  Context {T Op : Type} {OP : Operator Op}.

  Lemma tree_exists (t : T) (ps : list (Op * T)) :
    exists tr : tree T Op, reading tr = (t, ps) /\ respects tr.
  Proof.
    set (mx := Datatypes.S (list_max (map (fun p => precedence (fst p)) ps))).
    assert (forall p, In p ps -> in_range mx (fst p)) as Hr.
    { intros p Hp _. unfold mx. assert (precedence (fst p) <= list_max (map (fun p => precedence (fst p)) ps)); [|lia].
      apply Forall_forall with (P := fun x => x <= list_max (map (fun p => precedence (fst p)) ps)) (l := map (fun p => precedence (fst p)) ps).
      - apply list_max_le. lia.
      - now apply in_map with (f := fun p => precedence (fst p)). }
    clearbody mx.
    assert (forall st x, stack_ok mx st (Leaf x) -> exists st' x', stack_ok mx st' (Leaf x') /\
              stack_reading st' (x', []) = (fst (stack_reading st (x, [])), snd (stack_reading st (x, [])) ++ ps)) as H.
    { induction ps as [|[o y] ps IH]; intros st x Hok.
      - exists st, x. split; auto. rewrite app_nil_r. now destruct (stack_reading st (x, [])).
      - destruct (insert_spec (fun _ : T => tt) (fun _ _ _ => tt) mx true st (Leaf x) o y Hok) as [st1 [_ [H1 H2]]].
        + apply (Hr (o, y)). now left.
        + discriminate.
        + destruct (IH (fun p Hp => Hr p (or_intror Hp)) st1 y H1) as [st' [x' [K1 K2]]].
          exists st', x'. split; auto. rewrite K2, H2. cbn [fst snd reading]. now rewrite <- app_assoc. }
    destruct (H [] t) as [st [x [H1 H2]]]; [exact I|].
    destruct (reduce_all_spec (fun _ : T => tt) (fun _ _ _ => tt) mx st (Leaf x) H1) as [tr [_ [R1 R2]]].
    exists tr. split; auto. rewrite R2. cbn [reading]. rewrite H2. reflexivity.
  Qed.
End Exists.
