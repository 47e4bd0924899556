(** * L_Iter: proofs about iterative parsers. *)
From Verif Require Export L_Base L_Comb L_Comb2 S_Iter.

Set Implicit Arguments.

Definition death (c : crash) {A} : comp A :=
  match c with CPanic => Panic | CUB => UB | CFuel => OutOfFuel end.

Ltac exd := repeat match goal with
  | H : exists _, _ |- _ => destruct H as [? H]
  | H : _ /\ _ |- _ => destruct H as [? H]
  end.
Ltac rets := exd; repeat match goal with
  | H : Ret _ = Ret _ |- _ => injection H; intros; clear H; subst
  end.

Section Runs.
  Context {St S O E : Type}.

  Lemma yields_app (it : iter St S O E) st s l1 st1 s1 l2 st2 s2 :
    yields it st s l1 st1 s1 -> yields it st1 s1 l2 st2 s2 -> yields it st s (l1 ++ l2) st2 s2.
  Proof. induction 1; intros H2; cbn; auto. econstructor; eauto. Qed.

  Lemma stops_cases (it : iter St S O E) st s :
    (exists v st' s', it_next it st s = Ret (st', Ok (Some v) s')) \/ (exists w, stops it st s w).
  Proof.
    destruct (it_next it st s) as [[st' [[v|] r|e r]]| | |] eqn:H.
    - left; eauto.
    - right. exists (Ended s r). cbn. eauto.
    - right. exists (Failed s e r). cbn. eauto.
    - right. exists (Crashed s CPanic). cbn. auto.
    - right. exists (Crashed s CUB). cbn. auto.
    - right. exists (Crashed s CFuel). cbn. auto.
  Qed.

  Lemma stops_not_yield (it : iter St S O E) st s w v st' s' :
    stops it st s w -> it_next it st s = Ret (st', Ok (Some v) s') -> False.
  Proof.
    intros H1 H2. destruct w as [f r|f e l|f []]; cbn in H1; destruct H1 as [_ H1];
      exd; congruence.
  Qed.

End Runs.

(** ** fold *)
Section Fold.
  Context {St S O E Acc : Type} (f : Acc -> O -> Acc).

  Lemma fold_loop_yields (it : iter St S O E) st s l st' s' :
    yields it st s l st' s' -> forall fuel acc,
    fold_loop (length l + fuel) it f st acc s = fold_loop fuel it f st' (fold_left f (items l) acc) s'.
  Proof. induction 1; intros fuel acc; cbn; auto. rewrite H. cbn. apply IHyields. Qed.

  Lemma fold_of_run (p : diter St S O E) init s l w fuel :
    run (parse_iterative p) s l w -> length l < fuel ->
    parse (Fold fuel p init f) s =
    match w with
    | Ended _ rest => Ret (Ok (fold_left f (items l) init) rest)
    | Failed _ e loc => Ret (Err e loc)
    | Crashed _ k => death k
    end.
  Proof.
    intros [st' [s' [Hy Hs]]] Hf. cbn.
    replace fuel with (length l + Datatypes.S (fuel - length l - 1)) by lia.
    rewrite (fold_loop_yields Hy). cbn.
    destruct w as [fr r|fr e lo|fr []]; cbn in Hs; destruct Hs as [-> Hs];
      exd; rewrite Hs; reflexivity.
  Qed.

  Lemma fold_loop_run (it : iter St S O E) fuel st s acc c :
    fold_loop fuel it f st acc s = c -> c <> OutOfFuel ->
    exists l st' s' w, yields it st s l st' s' /\ stops it st' s' w /\ length l < fuel.
  Proof.
    revert st s acc. induction fuel as [|fuel IH]; intros st s acc H Hc; cbn in H; [congruence|].
    destruct (stops_cases it st s) as [[v [st1 [s1 Hn]]]|[w Hw]].
    - rewrite Hn in H. cbn in H. destruct (IH _ _ _ H Hc) as [l [st' [s' [w [H1 [H2 H3]]]]]].
      exists ((v, s1) :: l), st', s', w. cbn. repeat split; auto; [econstructor; eauto|lia].
    - exists [], st, s, w. cbn. repeat split; auto; [constructor|lia].
  Qed.

  Lemma fold_has_run (p : diter St S O E) init s fuel :
    parse (Fold fuel p init f) s <> OutOfFuel ->
    exists l w, run (parse_iterative p) s l w /\ length l < fuel.
  Proof.
    intros H. cbn in H. destruct (fold_loop_run _ _ _ _ _ eq_refl H) as [l [st' [s' [w [H1 [H2 H3]]]]]].
    exists l, w. split; auto. exists st', s'. auto.
  Qed.
End Fold.

(** ** collect *)
Section Collect.
  Context {S A : Type} {RS : RewindSequence S A} {reach : S -> S -> Prop} (LR : lawful_rewind reach).
  Context {St O E C : Type} (cdefault : C) (cextend : C -> O -> C).

  Lemma collect_loop_yields (it : iter St S O E) st s l st' s' :
    yields it st s l st' s' -> forall fuel acc,
    collect_loop cextend (length l + fuel) it st acc s
    = collect_loop cextend fuel it st' (fold_left cextend (items l) acc) s'.
  Proof. induction 1; intros fuel acc; cbn; auto. rewrite H. cbn. apply IHyields. Qed.

  Lemma collect_of_run (p : diter St S O E) s l w fuel :
    forward_iter reach (parse_iterative p) ->
    run (parse_iterative p) s l w -> length l < fuel ->
    parse (Collect cdefault cextend fuel p) s =
    match w with
    | Ended from _ => Ret (Ok (fold_left cextend (items l) cdefault, None) from)
    | Failed from e _ => Ret (Ok (fold_left cextend (items l) cdefault, Some e) from)
    | Crashed _ k => death k
    end.
  Proof.
    intros Hfw [st' [s' [Hy Hs]]] Hf. cbn.
    replace fuel with (length l + Datatypes.S (fuel - length l - 1)) by lia.
    rewrite (collect_loop_yields Hy). cbn.
    destruct w as [fr r|fr e lo|fr []]; cbn in Hs; destruct Hs as [-> Hs];
      exd; rewrite Hs; try reflexivity.
    - cbn. rewrite (rewind_anchor LR); [reflexivity|]. exact (Hfw _ _ _ _ Hs).
    - cbn. rewrite (rewind_anchor LR); [reflexivity|]. exact (Hfw _ _ _ _ Hs).
  Qed.

  Lemma collect_loop_run (it : iter St S O E) fuel st s acc c :
    collect_loop cextend fuel it st acc s = c -> c <> OutOfFuel ->
    exists l st' s' w, yields it st s l st' s' /\ stops it st' s' w /\ length l < fuel.
  Proof.
    revert st s acc. induction fuel as [|fuel IH]; intros st s acc H Hc; cbn in H; [congruence|].
    destruct (stops_cases it st s) as [[v [st1 [s1 Hn]]]|[w Hw]].
    - rewrite Hn in H. cbn in H. destruct (IH _ _ _ H Hc) as [l [st' [s' [w [H1 [H2 H3]]]]]].
      exists ((v, s1) :: l), st', s', w. cbn. repeat split; auto; [econstructor; eauto|lia].
    - exists [], st, s, w. cbn. repeat split; auto; [constructor|lia].
  Qed.

  Lemma collect_has_run (p : diter St S O E) s fuel :
    parse (Collect cdefault cextend fuel p) s <> OutOfFuel ->
    exists l w, run (parse_iterative p) s l w /\ length l < fuel.
  Proof.
    intros H. cbn in H. destruct (collect_loop_run _ _ _ _ _ eq_refl H) as [l [st' [s' [w [H1 [H2 H3]]]]]].
    exists l, w. split; auto. exists st', s'. auto.
  Qed.

  Lemma collect_never_fails (p : diter St S O E) s fuel e l :
    parse (Collect cdefault cextend fuel p) s <> Ret (Err e l).
  Proof.
    cbn. generalize (it_init (parse_iterative p)) cdefault s.
    induction fuel as [|fuel IH]; intros st acc s0; cbn; [discriminate|].
    destruct (it_next (parse_iterative p) st s0) as [[st' [[v|] r|e' r]]| | |]; cbn; try discriminate; auto.
    - destruct (rewind r (anchor s0)); cbn; unfold done; discriminate.
    - destruct (rewind r (anchor s0)); cbn; unfold done; discriminate.
  Qed.
End Collect.

Lemma extend_list {O} (l acc : list O) : fold_left (fun c v => c ++ [v]) l acc = acc ++ l.
Proof. revert acc. induction l as [|x l IH]; intros acc; cbn; [now rewrite app_nil_r|]. rewrite IH, <- app_assoc. reflexivity. Qed.

(** ** map_each *)
Section MapEach.
  Context {St S O E T : Type} (f : O -> T) (it : iter St S O E).
  Let it' : iter St S T E := IT (it_init it) (map_each_next it f).

  Lemma map_each_yields st s l st' s' :
    yields it st s l st' s' -> yields it' st s (map_items f l) st' s'.
  Proof.
    induction 1; cbn; [constructor|]. econstructor; [|eassumption].
    cbn. unfold map_each_next. now rewrite H.
  Qed.
  Lemma map_each_yields_inv st s us st' s' :
    yields it' st s us st' s' -> exists l, us = map_items f l /\ yields it st s l st' s'.
  Proof.
    induction 1 as [|st s v st1 s1 l st' s' Hn Hy IH].
    - exists []. split; [reflexivity|constructor].
    - destruct IH as [l0 [-> Hl]]. cbn in Hn. unfold map_each_next in Hn.
      destruct (it_next it st s) as [[st2 [[v0|] r|e r]]| | |] eqn:Hi; cbn in Hn; try discriminate.
      injection Hn as -> <- ->. exists ((v0, s1) :: l0). split; [reflexivity|]. econstructor; eauto.
  Qed.
  Lemma map_each_stops st s w : stops it' st s w <-> stops it st s w.
  Proof.
    unfold stops. cbn [it_next it']. unfold map_each_next.
    destruct (it_next it st s) as [[st2 [[v0|] r|e r]]| | |] eqn:Hi; cbn [bind option_map];
    destruct w as [fr r0|fr e0 lo|fr []]; split; intros [H1 H2]; split; auto; try discriminate;
      rets; try discriminate; eauto.
  Qed.
  Lemma map_each_run s us w :
    run it' s us w <-> exists l, us = map_items f l /\ run it s l w.
  Proof.
    split.
    - intros [st' [s' [Hy Hs]]]. apply map_each_yields_inv in Hy. destruct Hy as [l [-> Hl]].
      exists l. split; auto. exists st', s'. split; auto. now apply map_each_stops.
    - intros [l [-> [st' [s' [Hy Hs]]]]]. exists st', s'. split; [now apply map_each_yields|now apply map_each_stops].
  Qed.
End MapEach.

(** ** scan *)
Section Scan.
  Context {St S O E T St2 : Type} (f : St2 -> O -> St2 * T) (it : iter St S O E).
  Definition scan_it (i : St2) : iter (St * St2) S T E := IT (it_init it, i) (scan_next it f).

  Lemma scan_yields st s l st' s' :
    yields it st s l st' s' -> forall i st2,
    exists st2', yields (scan_it i) (st, st2) s (scanned f st2 l) (st', st2') s'.
  Proof.
    induction 1 as [st s|st s v st1 s1 l st' s' Hn Hy IH]; intros i st2.
    - exists st2. constructor.
    - destruct (IH i (fst (f st2 v))) as [st2' H2]. exists st2'. cbn. econstructor; [|eassumption].
      cbn. rewrite Hn. cbn. destruct (f st2 v); reflexivity.
  Qed.
  Lemma scan_yields_inv i x s us y s' :
    yields (scan_it i) x s us y s' ->
    exists l, us = scanned f (snd x) l /\ yields it (fst x) s l (fst y) s'.
  Proof.
    induction 1 as [st s|st s v st1 s1 l st' s' Hn Hy IH].
    - exists []. split; [reflexivity|constructor].
    - destruct IH as [l0 [-> Hl]]. destruct st as [pst st]. cbn in Hn.
      destruct (it_next it pst s) as [[st2 [[v0|] r|e r]]| | |] eqn:Hi; cbn in Hn; try discriminate.
      destruct (f st v0) as [st3 o] eqn:Hf. injection Hn as <- -> ->.
      exists ((v0, s1) :: l0). cbn in *. rewrite Hf. cbn. split; [reflexivity|]. econstructor; eauto.
  Qed.
  Lemma scan_stops i pst st2 s w : stops (scan_it i) (pst, st2) s w <-> stops it pst s w.
  Proof.
    unfold stops. cbn [it_next scan_it scan_next].
    destruct (it_next it pst s) as [[st3 [[v0|] r|e r]]| | |] eqn:Hi; cbn [bind];
    [destruct (f st2 v0)| | | | |];
    destruct w as [fr r0|fr e0 lo|fr []]; split; intros [H1 H2]; split; auto; try discriminate;
      rets; try discriminate; eauto.
  Qed.
  Lemma scan_run i s us w :
    run (scan_it i) s us w <-> exists l, us = scanned f i l /\ run it s l w.
  Proof.
    split.
    - intros [[st' st2'] [s' [Hy Hs]]]. apply scan_yields_inv in Hy. destruct Hy as [l [-> Hl]].
      exists l. split; auto. exists st', s'. split; auto. now apply scan_stops in Hs.
    - intros [l [-> [st' [s' [Hy Hs]]]]]. destruct (scan_yields Hy i i) as [st2' H2].
      exists (st', st2'), s'. split; auto. now apply scan_stops.
  Qed.
End Scan.

(** ** A common core for map_while and try_map_each *)
Section MapWhile.
  Context {St S O E T : Type} (f : O -> option T) (it : iter St S O E).
  Definition mw_it : iter St S T E := IT (it_init it) (map_while_next it f).

  Lemma mw_yields st s l st' s' us :
    yields it st s l st' s' -> accepted f l us -> yields mw_it st s us st' s'.
  Proof.
    intros H. revert us. induction H; intros us Ha; inversion Ha; subst; [constructor|].
    destruct y as [u su]; cbn in *. destruct H3 as [H3 <-]. econstructor; [|eauto].
    cbn. unfold map_while_next. rewrite H. cbn. now rewrite H3.
  Qed.
  Lemma mw_yields_inv st s us st' s' :
    yields mw_it st s us st' s' -> exists l, accepted f l us /\ yields it st s l st' s'.
  Proof.
    induction 1 as [|st s v st1 s1 l st' s' Hn Hy IH].
    - exists []. split; constructor.
    - destruct IH as [l0 [Ha Hl]]. cbn in Hn. unfold map_while_next in Hn.
      destruct (it_next it st s) as [[st2 [[v0|] r|e r]]| | |] eqn:Hi; cbn in Hn; try discriminate.
      injection Hn as -> Hf ->. exists ((v0, s1) :: l0). split; [constructor; auto|]. econstructor; eauto.
  Qed.
  Lemma mw_stops st s w :
    stops mw_it st s w <->
    stops it st s w \/
    exists v st' rest, it_next it st s = Ret (st', Ok (Some v) rest) /\ f v = None /\ w = Ended s rest.
  Proof.
    unfold stops. cbn [it_next mw_it]. unfold map_while_next.
    destruct (it_next it st s) as [[st2 [[v0|] r|e r]]| | |] eqn:Hi; cbn [bind].
    2-6: split; [intros H; left|intros [H|[v [st' [rest [H _]]]]]; [|discriminate]];
      destruct w as [fr r0|fr e0 lo|fr []]; destruct H; rets; try discriminate; eauto.
    split.
    - intros Hw. right. exists v0, st2, r. split; auto.
      destruct (f v0); destruct w as [fr r0|fr e0 lo|fr []]; destruct Hw as [H1 H2];
        exd; try discriminate. injection H2 as -> ->. subst. auto.
    - intros [Hw|[v [st' [rest [H1 [H2 ->]]]]]].
      + destruct w as [fr r0|fr e0 lo|fr []]; destruct Hw as [H1 H2];
        exd; discriminate.
      + injection H1 as -> -> ->. rewrite H2. split; eauto.
  Qed.

  Lemma mw_run s us w :
    run mw_it s us w <->
    (exists l, accepted f l us /\ run it s l w) \/
    (exists l v st from st' rest, accepted f l us /\ yields it (it_init it) s l st from /\
       it_next it st from = Ret (st', Ok (Some v) rest) /\ f v = None /\ w = Ended from rest).
  Proof.
    split.
    - intros [st' [s' [Hy Hs]]]. apply mw_yields_inv in Hy. destruct Hy as [l [Ha Hl]].
      apply mw_stops in Hs. destruct Hs as [Hs|[v [st2 [rest [H1 [H2 H3]]]]]].
      + left. exists l. split; auto. exists st', s'. auto.
      + right. exists l, v, st', s', st2, rest. auto.
    - intros [[l [Ha [st' [s' [Hy Hs]]]]]|[l [v [st [from [st' [rest [Ha [Hy [H1 [H2 ->]]]]]]]]]]].
      + exists st', s'. split; [eapply mw_yields; eauto|]. apply mw_stops. now left.
      + exists st, from. split; [eapply mw_yields; eauto|]. apply mw_stops. right. exists v, st', rest. auto.
  Qed.
End MapWhile.

Section TryMapEach.
  Context {St S O E T E' : Type} {PE : ParseError E'} (from : E -> E') (f : O -> result T E').
  Context (it : iter St S O E).
  Definition tm_it : iter St S T E' := IT (it_init it) (try_map_each_next from it f).
  Definition f_opt (v : O) : option T := match f v with ROk t => Some t | RErr _ => None end.
  Definition map_ending (w : ending S E) : ending S E' :=
    match w with
    | Ended a b => Ended a b
    | Failed a e l => Failed a (from e) l
    | Crashed a k => Crashed a k
    end.
  (** How a rejected item ends the run. *)
  Definition rejection (at_ : S) (e : E') (rest : S) : ending S E' :=
    if should_terminate e then Failed at_ e rest else Ended at_ rest.

  Lemma tm_yields st s l st' s' us :
    yields it st s l st' s' -> accepted f_opt l us -> yields tm_it st s us st' s'.
  Proof.
    intros H. revert us. induction H; intros us Ha; inversion Ha; subst; [constructor|].
    destruct y as [u su]; cbn in *. destruct H3 as [H3 <-]. econstructor; [|eauto].
    cbn. unfold try_map_each_next. rewrite H. cbn. unfold f_opt in H3. destruct (f v); congruence.
  Qed.
  Lemma tm_yields_inv st s us st' s' :
    yields tm_it st s us st' s' -> exists l, accepted f_opt l us /\ yields it st s l st' s'.
  Proof.
    induction 1 as [|st s v st1 s1 l st' s' Hn Hy IH].
    - exists []. split; constructor.
    - destruct IH as [l0 [Ha Hl]]. cbn in Hn. unfold try_map_each_next in Hn.
      destruct (it_next it st s) as [[st2 [[v0|] r|e r]]| | |] eqn:Hi; cbn in Hn; try discriminate.
      destruct (f v0) as [t|e] eqn:Hf.
      + injection Hn as -> -> ->. exists ((v0, s1) :: l0). split; [|econstructor; eauto].
        constructor; auto. cbn. unfold f_opt. now rewrite Hf.
      + destruct (should_terminate e); discriminate.
  Qed.
  Lemma tm_stops st s w :
    stops tm_it st s w <->
    (exists w0, stops it st s w0 /\ w = map_ending w0) \/
    exists v st' e rest, it_next it st s = Ret (st', Ok (Some v) rest) /\ f v = RErr e /\ w = rejection s e rest.
  Proof.
    unfold stops at 1. cbn [it_next tm_it]. unfold try_map_each_next. split.
    - intros Hw. destruct (it_next it st s) as [[st2 [[v0|] r|e r]]| | |] eqn:Hi; cbn [bind] in Hw.
      + right. exists v0, st2. destruct (f v0) as [t|e] eqn:Hf.
        * exfalso. destruct w as [fr r0|fr e0 lo|fr []]; destruct Hw as [H1 H2];
            exd; discriminate.
        * exists e, r. repeat split; auto. unfold rejection. destruct (should_terminate e);
          destruct w as [fr r0|fr e0 lo|fr []]; destruct Hw as [H1 H2];
            exd; try discriminate; injection H2; intros; subst; auto.
      + left. exists (Ended s r). cbn. split; [eauto|].
        destruct w as [fr r0|fr e0 lo|fr []]; destruct Hw as [H1 H2];
            exd; try discriminate; injection H2; intros; subst; auto.
      + left. exists (Failed s e r). cbn. split; [eauto|].
        destruct w as [fr r0|fr e0 lo|fr []]; destruct Hw as [H1 H2];
            exd; try discriminate; injection H2; intros; subst; auto.
      + left. exists (Crashed s CPanic). cbn. split; [auto|].
        destruct w as [fr r0|fr e0 lo|fr []]; destruct Hw as [H1 H2];
            exd; try discriminate; subst; auto.
      + left. exists (Crashed s CUB). cbn. split; [auto|].
        destruct w as [fr r0|fr e0 lo|fr []]; destruct Hw as [H1 H2];
            exd; try discriminate; subst; auto.
      + left. exists (Crashed s CFuel). cbn. split; [auto|].
        destruct w as [fr r0|fr e0 lo|fr []]; destruct Hw as [H1 H2];
            exd; try discriminate; subst; auto.
    - intros [[w0 [Hw ->]]|[v [st' [e [rest [H1 [H2 ->]]]]]]].
      + destruct w0 as [fr r0|fr e0 lo|fr []]; cbn in *; destruct Hw as [H1 H2];
            exd; rewrite H2; cbn; eauto.
      + rewrite H1. cbn. rewrite H2. unfold rejection. destruct (should_terminate e); cbn; eauto.
  Qed.

  Lemma tm_run s us w :
    run tm_it s us w <->
    (exists l w0, accepted f_opt l us /\ run it s l w0 /\ w = map_ending w0) \/
    (exists l v st at_ st' e rest, accepted f_opt l us /\ yields it (it_init it) s l st at_ /\
       it_next it st at_ = Ret (st', Ok (Some v) rest) /\ f v = RErr e /\ w = rejection at_ e rest).
  Proof.
    split.
    - intros [st' [s' [Hy Hs]]]. apply tm_yields_inv in Hy. destruct Hy as [l [Ha Hl]].
      apply tm_stops in Hs. destruct Hs as [[w0 [Hs ->]]|[v [st2 [e [rest [H1 [H2 H3]]]]]]].
      + left. exists l, w0. repeat split; auto. exists st', s'. auto.
      + right. exists l, v, st', s', st2, e, rest. auto.
    - intros [[l [w0 [Ha [[st' [s' [Hy Hs]]] ->]]]]|[l [v [st [at_ [st' [e [rest [Ha [Hy [H1 [H2 ->]]]]]]]]]]]].
      + exists st', s'. split; [eapply tm_yields; eauto|]. apply tm_stops. left. eauto.
      + exists st, at_. split; [eapply tm_yields; eauto|]. apply tm_stops. right. exists v, st', e, rest. auto.
  Qed.
End TryMapEach.

(** ** take *)
Section Take.
  Context {St S O E : Type} (it : iter St S O E).
  Definition take_it (n : nat) : iter (St * nat) S O E := IT (it_init it, n) (take_next it).

  Lemma take_yields n st s l st' s' :
    yields it st s l st' s' -> forall k, length l <= k ->
    yields (take_it n) (st, k) s l (st', k - length l) s'.
  Proof.
    induction 1 as [st s|st s v st1 s1 l st' s' Hn Hy IH]; intros k Hk; cbn in *.
    - rewrite Nat.sub_0_r. constructor.
    - destruct k as [|k]; [lia|]. econstructor.
      + cbn. rewrite Hn. cbn. rewrite Nat.sub_0_r. reflexivity.
      + apply IH. lia.
  Qed.
  Lemma take_yields_inv n x s l y s' :
    yields (take_it n) x s l y s' ->
    length l <= snd x /\ snd y = snd x - length l /\ yields it (fst x) s l (fst y) s'.
  Proof.
    induction 1 as [st s|st s v st1 s1 l st' s' Hn Hy IH]; cbn.
    - repeat split; [lia|lia|constructor].
    - destruct st as [st k]. cbn in Hn. destruct (Nat.eqb_spec k 0); [discriminate|].
      destruct (it_next it st s) as [[st2 [[v0|] r|e r]]| | |] eqn:Hi; cbn in Hn; try discriminate.
      injection Hn as <- -> ->. cbn in *. destruct IH as [H1 [H2 H3]].
      repeat split; try lia. econstructor; eauto.
  Qed.
  Lemma take_stops n st k s w :
    stops (take_it n) (st, k) s w <-> (0 < k /\ stops it st s w) \/ (k = 0 /\ w = Ended s s).
  Proof.
    unfold stops. cbn [it_next take_it take_next]. destruct (Nat.eqb_spec k 0) as [->|Hk].
    - split.
      + intros Hw. right. destruct w as [fr r0|fr e0 lo|fr []]; destruct Hw as [H1 H2];
            exd; try discriminate; injection H2; intros; subst; auto.
      + intros [[H _]|[_ ->]]; [lia|eauto].
    - split.
      + intros Hw. left. split; [lia|].
        destruct (it_next it st s) as [[st2 [[v0|] r|e r]]| | |] eqn:Hi; cbn [bind] in Hw;
        destruct w as [fr r0|fr e0 lo|fr []]; destruct Hw as [H1 H2]; split; auto;
            exd; try discriminate; injection H2; intros; subst; eauto.
      + intros [[_ Hw]|[H _]]; [|lia].
        destruct w as [fr r0|fr e0 lo|fr []]; destruct Hw as [H1 H2];
            exd; rewrite H2; cbn; eauto.
  Qed.
  Lemma take_run n s l w :
    run (take_it n) s l w <->
    (length l < n /\ run it s l w) \/
    (length l = n /\ exists st at_, yields it (it_init it) s l st at_ /\ w = Ended at_ at_).
  Proof.
    split.
    - intros [[st' k] [s' [Hy Hs]]]. apply take_yields_inv in Hy. cbn in Hy. destruct Hy as [H1 [H2 H3]].
      apply take_stops in Hs. destruct Hs as [[Hk Hs]|[-> ->]].
      + left. split; [lia|]. exists st', s'. auto.
      + right. split; [lia|]. exists st', s'. auto.
    - intros [[Hl [st' [s' [Hy Hs]]]]|[Hl [st [at_ [Hy ->]]]]].
      + exists (st', n - length l), s'. split; [apply take_yields; auto; lia|]. apply take_stops. left. split; [lia|auto].
      + exists (st, n - length l), at_. split; [apply take_yields; auto; lia|]. apply take_stops. right. split; [lia|auto].
  Qed.
  Lemma take_exhausted n s l st k at_ :
    yields (take_it n) (it_init (take_it n)) s l (st, k) at_ -> length l = n ->
    forall ins, calls (take_it n) (st, k) ins = map (fun i => Answer (Ok None i)) ins.
  Proof.
    intros Hy Hl. apply take_yields_inv in Hy. cbn in Hy. destruct Hy as [_ [Hk _]].
    assert (k = 0) as -> by lia. induction ins as [|i ins IH]; cbn; auto. now rewrite IH.
  Qed.
End Take.

(** ** Repeat and Optional *)
Section Rep.
  Context {S A : Type} {RS : RewindSequence S A} {reach : S -> S -> Prop} (LR : lawful_rewind reach).
  Context {O E : Type} `{ParseError E} (p : dparser S O E) (Hf : forward reach (parse p)).

  Definition repeat_ending (r : S) (w : ending S E) : Prop :=
    match w with
    | Ended from rest => from = r /\ rest = r /\ exists e, behaves (parse p) r (Missed e)
    | Failed from e loc => from = r /\ behaves (parse p) r (Cut e) /\ parse p r = Ret (Err e loc)
    | Crashed from k => from = r /\ behaves (parse p) r (Crash k)
    end.
  Lemma repeat_iter_step u s v u' s' :
    it_next (parse_iterative (RepeatIter p)) u s = Ret (u', Ok (Some v) s') <-> parse p s = Ret (Ok v s').
  Proof.
    destruct u, u'. cbn. unfold repeat_next. cbn. unfold ref_parse.
    destruct (parse p s) as [[o r|e r]| | |] eqn:Hp; cbn; split; try congruence.
destruct (should_terminate e); [discriminate|]. destruct (rewind r (anchor s)); discriminate.
  Qed.
  Lemma repeat_iter_stops u s w :
    stops (parse_iterative (RepeatIter p)) u s w <-> repeat_ending s w.
  Proof.
    destruct u. unfold stops, repeat_ending. cbn [it_next parse_iterative RepeatIter]. unfold repeat_next. cbn [parse Ref].
    unfold ref_parse. unfold behaves.
    destruct (parse p s) as [[o r|e r]| | |] eqn:Hp; cbn [bind].
    2: destruct (should_terminate e) eqn:Ht; [|rewrite (rewind_err LR _ Hf Hp); cbn [bind]].
    all: destruct w as [fr r0|fr e0 lo|fr []]; split; intros [H1 H2]; split; auto; try discriminate;
      repeat match goal with
      | H : _ /\ _ |- _ => destruct H
      | H : exists _, _ |- _ => destruct H
      | H : Ret _ = Ret _ |- _ => injection H; intros; clear H; subst
      end; try congruence; eauto.
  Qed.
  Lemma repeat_iter_yields u s l u' s' :
    yields (parse_iterative (RepeatIter p)) u s l u' s' <-> many_at (behaves (parse p)) s l s'.
  Proof.
    destruct u, u'. split.
    - induction 1; [constructor|]. constructor; auto. now apply repeat_iter_step in H0.
    - induction 1; [constructor|]. econstructor; eauto. apply repeat_iter_step. exact H0.
  Qed.
  Lemma repeat_iter_run s l w :
    run (parse_iterative (RepeatIter p)) s l w <->
    exists r, many_at (behaves (parse p)) s l r /\ repeat_ending r w.
  Proof.
    split.
    - intros [st' [s' [H1 H2]]]. exists s'. split; [now apply repeat_iter_yields in H1|now apply repeat_iter_stops in H2].
    - intros [r [H1 H2]]. exists tt, r. split; [now apply repeat_iter_yields|now apply repeat_iter_stops].
  Qed.

  Lemma repeat_iter_forward : forward_iter reach (parse_iterative (RepeatIter p)).
  Proof.
    intros [] s [] r. cbn. unfold repeat_next. cbn. unfold ref_parse.
    destruct (parse p s) as [[o r0|e r0]| | |] eqn:Hp; cbn; try discriminate.
    - injection 1 as <-. exact (@Hf _ _ Hp).
    - destruct (should_terminate e).
      + injection 1 as <-. exact (@Hf _ _ Hp).
      + rewrite (rewind_err LR _ Hf Hp). injection 1 as <-. cbn. apply (reach_refl LR).
  Qed.

  Lemma many_positions s vs r :
    many (behaves (parse p)) s vs r -> exists l, items l = vs /\ many_at (behaves (parse p)) s l r.
  Proof.
    induction 1 as [s|s v m vs r Hv Hm [l [Hl Hl2]]].
    - exists []. split; [auto|constructor].
    - exists ((v, m) :: l). split; [unfold items in *; cbn; now rewrite Hl|now constructor].
  Qed.

  Lemma repeat_collected fuel fuel' s vs e r :
    parse (Repeat fuel p) s = Ret (Ok (vs, e) r) -> length vs < fuel' ->
    parse (Collect [] (fun c v => c ++ [v]) fuel' (RepeatIter p)) s = Ret (Ok (vs, None) r).
  Proof.
    intros Hr Hl.
    assert (repetition (behaves (parse p)) s (Succ (vs, e) r)) as Hrep.
    { apply (repeat_sound LR p Hf fuel s); [exact Hr|discriminate]. }
    inversion Hrep as [s0 vs0 r0 e0 Hm He| | ]; subst.
    destruct (many_positions Hm) as [l [<- Hl2]].
    assert (run (parse_iterative (RepeatIter p)) s l (Ended r r)) as Hrun.
    { apply repeat_iter_run. exists r. split; auto. cbn. eauto. }
    assert (length l < fuel') as Hl' by (unfold items in Hl; now rewrite map_length in Hl).
    pose proof (collect_of_run LR [] (fun c v => c ++ [v]) _ repeat_iter_forward Hrun Hl') as Hc.
    cbv iota in Hc. rewrite extend_list in Hc. exact Hc.
  Qed.

  (** Optional *)
  Lemma optional_later ins : calls (parse_iterative (OptionalIter p)) false ins = map (fun i => Answer (Ok None i)) ins.
  Proof. induction ins as [|i ins IH]; [reflexivity|]. cbn. f_equal. exact IH. Qed.
  Lemma optional_calls s ins :
    (forall v r, parse p s = Ret (Ok v r) ->
       calls (parse_iterative (OptionalIter p)) true (s :: ins)
       = Answer (Ok (Some v) r) :: map (fun i => Answer (Ok None i)) ins) /\
    (forall e, behaves (parse p) s (Missed e) ->
       calls (parse_iterative (OptionalIter p)) true (s :: ins)
       = Answer (Ok None s) :: map (fun i => Answer (Ok None i)) ins) /\
    (forall e l, should_terminate e = true -> parse p s = Ret (Err e l) ->
       calls (parse_iterative (OptionalIter p)) true (s :: ins)
       = Answer (Err e l) :: map (fun i => Answer (Ok None i)) ins) /\
    (forall k, behaves (parse p) s (Crash k) ->
       calls (parse_iterative (OptionalIter p)) true (s :: ins) = [Died k]).
  Proof.
    cbn [calls]. rewrite <- optional_later. cbn [it_next parse_iterative OptionalIter]. unfold optional_next; cbn [negb].
    split; [|split; [|split]].
    - intros v r Hp. rewrite Hp. reflexivity.
    - intros e [Ht [l Hp]]. rewrite (rewind_err LR _ Hf Hp) || idtac. rewrite Hp. cbn [bind]. rewrite Ht.
      rewrite (rewind_err LR _ Hf Hp). reflexivity.
    - intros e l Ht Hp. rewrite Hp. cbn [bind]. rewrite Ht. reflexivity.
    - intros [] Hp; cbn in Hp; rewrite Hp; reflexivity.
  Qed.
End Rep.

(** ** Consuming and borrowing *)
Section Coherence.
  Context {S : Type}.

  Definition same_from {St1 St2 O E} (a : iter St1 S O E) (x : St1) (b : iter St2 S O E) (y : St2) : Prop :=
    forall ins, calls a x ins = calls b y ins.

  Lemma same_step {St1 St2 O E} (a : iter St1 S O E) x (b : iter St2 S O E) y s :
    same_from a x b y ->
    match it_next a x s, it_next b y s with
    | Ret (x', r), Ret (y', r') => r = r' /\ same_from a x' b y'
    | Panic, Panic | UB, UB | OutOfFuel, OutOfFuel => True
    | _, _ => False
    end.
  Proof.
    intros H. pose proof (H [s]) as H1. cbn in H1.
    destruct (it_next a x s) as [[x' r]| | |] eqn:Ha, (it_next b y s) as [[y' r']| | |] eqn:Hb;
      try discriminate; auto.
    injection H1 as ->. split; auto. intros ins. pose proof (H (s :: ins)) as H2. cbn in H2.
    rewrite Ha, Hb in H2. now injection H2.
  Qed.

  (** An adaptor described by what it does with one underlying answer. *)
  Lemma map_each_same {St O E T} (f : O -> T) (a b : iter St S O E) x y :
    same_from a x b y ->
    same_from (IT (it_init a) (map_each_next a f)) x (IT (it_init b) (map_each_next b f)) y.
  Proof.
    intros H ins. revert x y H. induction ins as [|s ins IH]; intros x y H; cbn; auto.
    pose proof (same_step s H) as H1. unfold map_each_next at 1 3.
    destruct (it_next a x s) as [[x' r]| | |], (it_next b y s) as [[y' r']| | |]; try contradiction; auto.
    destruct H1 as [<- H1]. cbn. destruct r as [o r|e r]; cbn; f_equal; now apply IH.
  Qed.
  Lemma map_while_same {St O E T} (f : O -> option T) (a b : iter St S O E) x y :
    same_from a x b y ->
    same_from (IT (it_init a) (map_while_next a f)) x (IT (it_init b) (map_while_next b f)) y.
  Proof.
    intros H ins. revert x y H. induction ins as [|s ins IH]; intros x y H; cbn; auto.
    pose proof (same_step s H) as H1. unfold map_while_next at 1 3.
    destruct (it_next a x s) as [[x' r]| | |], (it_next b y s) as [[y' r']| | |]; try contradiction; auto.
    destruct H1 as [<- H1]. cbn. destruct r as [o r|e r]; cbn; f_equal; now apply IH.
  Qed.
  Lemma try_map_each_same {St O E T E'} `{ParseError E'} (from : E -> E') (f : O -> result T E')
    (a b : iter St S O E) x y :
    same_from a x b y ->
    same_from (IT (it_init a) (try_map_each_next from a f)) x (IT (it_init b) (try_map_each_next from b f)) y.
  Proof.
    intros H0 ins. revert x y H0. induction ins as [|s ins IH]; intros x y H0; cbn; auto.
    pose proof (same_step s H0) as H1. unfold try_map_each_next at 1 3.
    destruct (it_next a x s) as [[x' r]| | |], (it_next b y s) as [[y' r']| | |]; try contradiction; auto.
    destruct H1 as [<- H1]. cbn. destruct r as [[o|] r|e r]; cbn.
    - destruct (f o) as [t|e]; [f_equal; now apply IH|].
      destruct (should_terminate e); f_equal; now apply IH.
    - f_equal; now apply IH.
    - f_equal; now apply IH.
  Qed.
  Lemma scan_same {St O E T St2} (f : St2 -> O -> St2 * T) i (a b : iter St S O E) x y st2 :
    same_from a x b y ->
    same_from (IT (it_init a, i) (scan_next a f)) (x, st2) (IT (it_init b, i) (scan_next b f)) (y, st2).
  Proof.
    intros H0 ins. revert x y st2 H0. induction ins as [|s ins IH]; intros x y st2 H0; cbn; auto.
    pose proof (same_step s H0) as H1.
    destruct (it_next a x s) as [[x' r]| | |], (it_next b y s) as [[y' r']| | |]; try contradiction; auto.
    destruct H1 as [<- H1]. cbn. destruct r as [[o|] r|e r]; cbn.
    - destruct (f st2 o) as [st3 t]. f_equal; now apply IH.
    - f_equal; now apply IH.
    - f_equal; now apply IH.
  Qed.
  Lemma take_same {St O E} i (a b : iter St S O E) x y k :
    same_from a x b y ->
    same_from (IT (it_init a, i) (take_next a)) (x, k) (IT (it_init b, i) (take_next b)) (y, k).
  Proof.
    intros H0 ins. revert x y k H0. induction ins as [|s ins IH]; intros x y k H0; cbn; auto.
    destruct (k =? 0); [f_equal; now apply IH|].
    pose proof (same_step s H0) as H1.
    destruct (it_next a x s) as [[x' r]| | |], (it_next b y s) as [[y' r']| | |]; try contradiction; auto.
    destruct H1 as [<- H1]. cbn. destruct r as [[o|] r|e r]; cbn; f_equal; now apply IH.
  Qed.
  Lemma fold_same {St O E Acc} (f : Acc -> O -> Acc) (a b : iter St S O E) x y fuel :
    same_from a x b y -> forall acc s, fold_loop fuel a f x acc s = fold_loop fuel b f y acc s.
  Proof.
    revert x y. induction fuel as [|fuel IH]; intros x y H0 acc s; cbn; auto.
    pose proof (same_step s H0) as H1.
    destruct (it_next a x s) as [[x' r]| | |], (it_next b y s) as [[y' r']| | |]; try contradiction; auto.
    destruct H1 as [<- H1]. cbn. destruct r as [[o|] r|e r]; cbn; auto.
  Qed.
  Context {A : Type} {RS : RewindSequence S A}.
  Lemma collect_same {St O E C} (ext : C -> O -> C) (a b : iter St S O E) x y fuel :
    same_from a x b y -> forall acc s, collect_loop ext fuel a x acc s = collect_loop ext fuel b y acc s.
  Proof.
    revert x y. induction fuel as [|fuel IH]; intros x y H0 acc s; cbn; auto.
    pose proof (same_step s H0) as H1.
    destruct (it_next a x s) as [[x' r]| | |], (it_next b y s) as [[y' r']| | |]; try contradiction; auto.
    destruct H1 as [<- H1]. cbn. destruct r as [[o|] r|e r]; cbn; auto.
  Qed.
  Lemma optional_iter_same {O E} `{ParseError E} (p : dparser S O E) :
    coherent p -> coherent_iter (OptionalIter p).
  Proof.
    intros Hc ins. change (it_init (parse_iterative (OptionalIter p))) with true.
    change (it_init (parse_iterative_once (OptionalIter p))) with true.
    assert (forall me, calls (parse_iterative (OptionalIter p)) me ins
                       = calls (parse_iterative_once (OptionalIter p)) me ins) as Hall; [|apply Hall].
    induction ins as [|s ins IH]; intros me; cbn [calls]; auto.
    cbn [it_next parse_iterative parse_iterative_once OptionalIter]. unfold optional_next at 1, optional_next_once at 1. destruct me; cbn [negb]; [|f_equal; apply IH].
    rewrite <- (Hc s).
    destruct (parse p s) as [[o r|e r]| | |]; cbn [bind]; auto; [f_equal; apply IH|].
    destruct (should_terminate e); [f_equal; apply IH|]. destruct (rewind r (anchor s)); cbn [bind]; auto.
    f_equal; apply IH.
  Qed.
  Lemma repeat_iter_same {O E} `{ParseError E} (p : dparser S O E) : coherent_iter (RepeatIter p).
  Proof.
    intros ins. reflexivity.
  Qed.
End Coherence.

(** ** The statements of P_Iter.v *)
Lemma coherent_iter_closed {S A} `{RewindSequence S A} :
  (forall O E `(ParseError E) (p : dparser S O E), coherent p -> coherent_iter (OptionalIter p)) /\
  (forall O E `(ParseError E) (p : dparser S O E), coherent_iter (RepeatIter p)) /\
  (forall St O E (p : diter St S O E), coherent_iter p ->
     coherent_iter (IterRef p) /\
     (forall T (f : O -> T), coherent_iter (MapEach p f)) /\
     (forall T (f : O -> option T), coherent_iter (MapWhile p f)) /\
     (forall T E' `(ParseError E') (from : E -> E') (f : O -> result T E'), coherent_iter (TryMapEach from p f)) /\
     (forall T St2 (i : St2) (f : St2 -> O -> St2 * T), coherent_iter (Scan p i f)) /\
     (forall n, coherent_iter (Take p n)) /\
     (forall Acc fuel (i : Acc) f, coherent (Fold fuel p i f)) /\
     (forall C (d : C) ext fuel, coherent (Collect d ext fuel p))).
Proof.
  split; [|split].
  - intros. now apply optional_iter_same.
  - intros. apply repeat_iter_same.
  - intros St O E p Hp. split; [|split; [|split; [|split; [|split; [|split; [|split]]]]]].
    + intros ins. reflexivity.
    + intros T f. apply map_each_same. exact Hp.
    + intros T f. apply map_while_same. exact Hp.
    + intros T E' H0 from f. apply try_map_each_same. exact Hp.
    + intros T St2 i f. apply scan_same. exact Hp.
    + intros n. apply take_same. exact Hp.
    + intros Acc fuel i f s. apply fold_same. exact Hp.
    + intros C d ext fuel s. apply collect_same. exact Hp.
Qed.

Lemma map_each_compose {St S O E T U} (f : O -> T) (g : T -> U) (p : diter St S O E) :
  same_calls (parse_iterative (MapEach (MapEach p f) g)) (parse_iterative (MapEach p (fun x => g (f x)))).
Proof.
  intros ins. change (it_init (parse_iterative (MapEach (MapEach p f) g))) with (it_init (parse_iterative p)).
  change (it_init (parse_iterative (MapEach p (fun x => g (f x))))) with (it_init (parse_iterative p)).
  generalize (it_init (parse_iterative p)).
  induction ins as [|s ins IH]; intros st; [reflexivity|]. cbn [calls it_next parse_iterative MapEach].
  assert (map_each_next (parse_iterative (MapEach p f)) g st s
          = map_each_next (parse_iterative p) (fun x => g (f x)) st s) as Heq.
  { unfold map_each_next at 1. cbn. unfold map_each_next.
    destruct (it_next (parse_iterative p) st s) as [[st' [[o|] r|e r]]| | |]; reflexivity. }
  cbn in Heq. rewrite Heq.
  destruct (map_each_next (parse_iterative p) (fun x => g (f x)) st s) as [[st' r]| | |]; auto.
  f_equal; apply IH.
Qed.

Section Statements.
  Context {S A : Type} {RS : RewindSequence S A} {reach : S -> S -> Prop} (LR : lawful_rewind reach).

  Lemma collect_vec {St O E} (p : diter St S O E) s l w fuel :
    forward_iter reach (parse_iterative p) ->
    run (parse_iterative p) s l w -> length l < fuel ->
    parse (Collect [] (fun c v => c ++ [v]) fuel p) s =
    match w with
    | Ended from _ => Ret (Ok (items l, None) from)
    | Failed from e _ => Ret (Ok (items l, Some e) from)
    | Crashed _ CPanic => Panic
    | Crashed _ CUB => UB
    | Crashed _ CFuel => OutOfFuel
    end.
  Proof.
    intros Hf Hr Hl. pose proof (collect_of_run LR [] (fun c v => c ++ [v]) p Hf Hr Hl) as H.
    rewrite extend_list in H. rewrite H. destruct w as [ | |? []]; reflexivity.
  Qed.
  Lemma collect_any {St O E C} (d : C) (ext : C -> O -> C) (p : diter St S O E) s l fuel :
    forward_iter reach (parse_iterative p) -> length l < fuel ->
    (forall from rest, run (parse_iterative p) s l (Ended from rest) ->
       parse (Collect d ext fuel p) s = Ret (Ok (fold_left ext (items l) d, None) from)) /\
    (forall from e loc, run (parse_iterative p) s l (Failed from e loc) ->
       parse (Collect d ext fuel p) s = Ret (Ok (fold_left ext (items l) d, Some e) from)).
  Proof.
    intros Hf Hl. split; intros; exact (collect_of_run LR d ext p Hf H Hl).
  Qed.
  Lemma fold_exact {St O E Acc} (f : Acc -> O -> Acc) (init : Acc) (p : diter St S O E) s l w fuel :
    run (parse_iterative p) s l w -> length l < fuel ->
    parse (Fold fuel p init f) s =
    match w with
    | Ended _ rest => Ret (Ok (fold_left f (items l) init) rest)
    | Failed _ e loc => Ret (Err e loc)
    | Crashed _ CPanic => Panic
    | Crashed _ CUB => UB
    | Crashed _ CFuel => OutOfFuel
    end.
  Proof.
    intros Hr Hl. rewrite (fold_of_run f p init Hr Hl). destruct w as [ | |? []]; reflexivity.
  Qed.
  Lemma remainders {St O E Acc} (f : Acc -> O -> Acc) init (p : diter St S O E) s l from rest fuel :
    forward_iter reach (parse_iterative p) ->
    run (parse_iterative p) s l (Ended from rest) -> length l < fuel ->
    location_of (parse (Fold fuel p init f) s) = Some rest /\
    location_of (parse (Collect [] (fun c v => c ++ [v]) fuel p) s) = Some from.
  Proof.
    intros Hf Hr Hl. rewrite (fold_exact f init p Hr Hl), (collect_vec p Hf Hr Hl). auto.
  Qed.
  Lemma repeat_same_remainder {O E Acc} `{ParseError E} (p : dparser S O E) (f : Acc -> O -> Acc) init
    s l from rest fuel :
    forward reach (parse p) -> run (parse_iterative (RepeatIter p)) s l (Ended from rest) -> length l < fuel ->
    location_of (parse (Fold fuel (RepeatIter p) init f) s)
    = location_of (parse (Collect [] (fun c v => c ++ [v]) fuel (RepeatIter p)) s).
  Proof.
    intros Hf Hr Hl. destruct (remainders f init (RepeatIter p) (repeat_iter_forward LR p Hf) Hr Hl) as [-> ->].
    apply (repeat_iter_run LR p Hf) in Hr. destruct Hr as [r [_ [-> [-> _]]]]. reflexivity.
  Qed.
End Statements.

Lemma C14_witness :
  let no_7 := AndThen (S := slice nat) First any_item (fun x => if x =? 7 then RErr (Last (MkFatal x)) else ROk x) in
  run (parse_iterative (RepeatIter no_7)) (Slice 1 0 [1; 2; 7; 3])
    [(1, Slice 1 1 [2; 7; 3]); (2, Slice 1 2 [7; 3])]
    (Failed (Slice 1 2 [7; 3]) (Last (MkFatal 7)) (Slice 1 3 [3])) /\
  should_terminate (Last (MkFatal 7) : Either (Miss unit) (Fatal nat)) = true /\
  parse (Collect [] (fun c v => c ++ [v]) 9 (RepeatIter no_7)) (Slice 1 0 [1; 2; 7; 3])
  = Ret (Ok ([1; 2], Some (Last (MkFatal 7))) (Slice 1 2 [7; 3])).
Proof.
  cbv zeta. split; [|split; reflexivity].
  exists tt, (Slice 1 2 [7; 3]). split; [|split; [reflexivity|]; exists tt; reflexivity].
  econstructor; [reflexivity|]. econstructor; [reflexivity|]. constructor.
Qed.
Lemma C19_witness :
  let until_3 := MapWhile (RepeatIter (any_item (S := slice nat))) (fun x => if x =? 3 then None else Some x) in
  run (parse_iterative until_3) (Slice 1 0 [1; 3; 5]) [(1, Slice 1 1 [3; 5])]
    (Ended (Slice 1 1 [3; 5]) (Slice 1 2 [5])) /\
  location_of (parse (Fold 9 until_3 0 Nat.add) (Slice 1 0 [1; 3; 5]))
  <> location_of (parse (Collect [] (fun c v => c ++ [v]) 9 until_3) (Slice 1 0 [1; 3; 5])).
Proof.
  cbv zeta. split; [|discriminate].
  exists tt, (Slice 1 1 [3; 5]). split; [|split; [reflexivity|]; exists tt; reflexivity].
  econstructor; [reflexivity|]. constructor.
Qed.

(** ** Sessions of arbitrary calls *)
Section Calls.
  Context {S : Type}.

  Lemma map_each_calls {St O E T} (f : O -> T) (p : diter St S O E) : forall ins st,
    calls (parse_iterative (MapEach p f)) st ins
    = map (on_answer (fun v r => Ok (Some (f v)) r) (fun e => e)) (calls (parse_iterative p) st ins).
  Proof.
    induction ins as [|s ins IH]; intros st; [reflexivity|]. cbn [calls it_next parse_iterative MapEach]. unfold map_each_next.
    destruct (it_next (parse_iterative p) st s) as [[st' [[v|] r|e r]]| | |]; cbn; try rewrite <- IH; reflexivity.
  Qed.

  Lemma map_while_calls {St O E T} (f : O -> option T) (p : diter St S O E) : forall ins st,
    calls (parse_iterative (MapWhile p f)) st ins
    = map (on_answer (fun v r => Ok (f v) r) (fun e => e)) (calls (parse_iterative p) st ins).
  Proof.
    induction ins as [|s ins IH]; intros st; [reflexivity|]. cbn [calls it_next parse_iterative MapWhile]. unfold map_while_next.
    destruct (it_next (parse_iterative p) st s) as [[st' [[v|] r|e r]]| | |]; cbn; try rewrite <- IH; reflexivity.
  Qed.

  Lemma try_map_each_calls {St O E T E'} `{ParseError E'} (from : E -> E') (f : O -> result T E') (p : diter St S O E) :
    forall ins st,
    calls (parse_iterative (TryMapEach from p f)) st ins
    = map (on_answer (fun v r => match f v with
                                 | ROk t => Ok (Some t) r
                                 | RErr e => if should_terminate e then Err e r else Ok None r
                                 end) from) (calls (parse_iterative p) st ins).
  Proof.
    induction ins as [|s ins IH]; intros st; [reflexivity|]. cbn [calls it_next parse_iterative TryMapEach].
    unfold try_map_each_next.
    destruct (it_next (parse_iterative p) st s) as [[st' [[v|] r|e r]]| | |]; cbn; try rewrite <- IH; try reflexivity.
    destruct (f v) as [t|e]; [reflexivity|]. destruct (should_terminate e); reflexivity.
  Qed.

  Lemma scan_calls {St O E T St2} (f : St2 -> O -> St2 * T) i (p : diter St S O E) : forall ins st st2,
    calls (parse_iterative (Scan p i f)) (st, st2) ins = scan_answers f st2 (calls (parse_iterative p) st ins).
  Proof.
    induction ins as [|s ins IH]; intros st st2; [reflexivity|]. cbn [calls it_next parse_iterative Scan]. unfold scan_next.
    destruct (it_next (parse_iterative p) st s) as [[st' [[v|] r|e r]]| | |]; cbn; try rewrite <- IH; try reflexivity.
    destruct (f st2 v); reflexivity.
  Qed.

  Lemma take_none {St O E} n (p : diter St S O E) st : forall ins,
    calls (parse_iterative (Take p n)) (st, 0) ins = map (fun i => Answer (Ok None i)) ins.
  Proof. induction ins as [|s ins IH]; [reflexivity|]. cbn. f_equal. exact IH. Qed.

  Lemma take_calls {St O E} n (p : diter St S O E) : forall ins st k,
    (k = 0 -> calls (parse_iterative (Take p n)) (st, k) ins = map (fun i => Answer (Ok None i)) ins) /\
    (0 < k -> calls (parse_iterative (Take p n)) (st, k) ins = take_answers k ins (calls (parse_iterative p) st ins)).
  Proof.
    induction ins as [|s ins IH]; intros st k; (split; [intros ->; apply take_none|]); intros Hk; [reflexivity|].
    cbn [calls it_next parse_iterative Take]. unfold take_next. cbn [take_answers].
    replace (k =? 0) with false by (symmetry; apply Nat.eqb_neq; lia).
    destruct (it_next (parse_iterative p) st s) as [[st' [[v|] r|e r]]| | |]; cbn [bind];
      replace (k =? 0) with false by (symmetry; apply Nat.eqb_neq; lia);
      try (destruct ins; reflexivity).
    - f_equal. destruct (Nat.eq_dec (k - 1) 0) as [E0|E0].
      + rewrite E0. etransitivity; [apply take_none|]. destruct ins as [|i ins]; [reflexivity|]. cbn [take_answers map].
        cbn [calls]. destruct (it_next (parse_iterative p) st' i) as [[? ?]| | |]; reflexivity.
      + apply IH; lia.
    - f_equal. now apply IH.
    - f_equal. now apply IH.
  Qed.
End Calls.
